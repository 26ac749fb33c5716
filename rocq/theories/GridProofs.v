(** Proofs of C97 and C98: the extraction grid. *)
From Coq Require Import Reals List Arith ZArith Bool Lia Lra Permutation Sorted.
From Verif Require Import RBool Outcome DbModel TrackModel TrackSpec TrackProofs GridModel GridSpec.
Import ListNotations.
Open Scope R_scope.

Lemma ceil_bounds x : IZR (ceilZ x) - 1 < x <= IZR (ceilZ x).
Proof. unfold ceilZ. destruct (Int_part_bounds (- x)). rewrite opp_IZR. lra. Qed.

(** ** the grid *)
Lemma regrid_thm nf gx gy : (0 < nf)%Z -> (0 < gx)%Z -> (0 < gy)%Z ->
  exists gx' gy', regrid nf gx gy = Ok (gx', gy') /\ grid_used nf gx gy gx' gy'.
Proof.
  intros Hn Hx Hy. unfold regrid, grid_used. destruct (Z.ltb_spec nf (gx * gy)) as [L|L]; [|exists gx, gy; split; [reflexivity|left; auto]].
  assert (Eq1 : (gy =? 0)%Z = false) by (apply Z.eqb_neq; lia). assert (Eq2 : (gx =? 0)%Z = false) by (apply Z.eqb_neq; lia). rewrite Eq1, Eq2. cbn [negb andb guard].
  pose proof (IZR_lt _ _ Hn) as Rn. pose proof (IZR_lt _ _ Hx) as Rx. pose proof (IZR_lt _ _ Hy) as Ry.
  set (q := IZR nf / (IZR gx / IZR gy)).
  assert (Q : q * IZR gx = IZR nf * IZR gy) by (unfold q; field; lra).
  assert (Qp : 0 < q) by (unfold q; apply Rdiv_lt_0_compat; [lra|apply Rdiv_lt_0_compat; lra]).
  destruct (Rleb_spec 0 q); [|lra]. cbn [guard].
  set (gy' := ceilZ (sqrt q)). set (gx' := ceilZ (IZR gy' * (IZR gx / IZR gy))).
  exists gx', gy'. split; [reflexivity|]. right. split; [exact L|].
  destruct (ceil_bounds (sqrt q)) as [B1 B2]. fold gy' in B1, B2.
  destruct (ceil_bounds (IZR gy' * (IZR gx / IZR gy))) as [C1 C2]. fold gx' in C1, C2.
  pose proof (sqrt_lt_R0 _ Qp) as Sp. pose proof (sqrt_sqrt q ltac:(lra)) as Ss.
  assert (Gp : (0 < gy')%Z) by (apply lt_IZR; lra).
  assert (G1 : 0 <= IZR gy' - 1) by (assert (1 <= gy')%Z as G by lia; apply IZR_le in G; lra).
  split; [exact Gp|]. split; split.
  - apply lt_IZR. rewrite !mult_IZR, minus_IZR. rewrite <- Q. apply Rmult_lt_compat_r; [exact Rx|]. rewrite <- Ss. apply Rmult_le_0_lt_compat; lra.
  - apply le_IZR. rewrite !mult_IZR. rewrite <- Q. apply Rmult_le_compat_r; [lra|]. rewrite <- Ss. apply Rmult_le_compat; lra.
  - apply lt_IZR. rewrite !mult_IZR, minus_IZR. replace (IZR gy' * IZR gx) with (IZR gy' * (IZR gx / IZR gy) * IZR gy) by (field; lra). apply Rmult_lt_compat_r; lra.
  - apply le_IZR. rewrite !mult_IZR. replace (IZR gy' * IZR gx) with (IZR gy' * (IZR gx / IZR gy) * IZR gy) by (field; lra). apply Rmult_le_compat_r; lra.
Qed.
(** it is no larger than the given one and has a cell for every feature *)
Lemma grid_used_bounds nf gx gy gx' gy' : (0 < nf)%Z -> (0 < gx)%Z -> (0 < gy)%Z -> grid_used nf gx gy gx' gy' ->
  (0 < gx' <= gx /\ 0 < gy' <= gy /\ (nf < gx * gy -> nf <= gx' * gy'))%Z.
Proof.
  intros Hn Hx Hy [(A & -> & ->)|(A & B & (C & D) & E & F)]; [lia|].
  assert (gy' <= gy)%Z. { destruct (Z.le_gt_cases gy' gy); [assumption|]. exfalso. assert (gy <= gy' - 1)%Z by lia. assert (gy * gy <= (gy' - 1) * (gy' - 1))%Z by nia. nia. }
  assert (gx' <= gx)%Z. { destruct (Z.le_gt_cases gx' gx); [assumption|]. exfalso. assert (gx <= gx' - 1)%Z by lia. nia. }
  assert (0 < gx')%Z by nia. repeat split; try assumption. intros _.
  assert (nf * gy <= gx' * gy' * gy)%Z by nia. nia.
Qed.
Lemma to_int_div a b : (0 <= a)%Z -> (0 < b)%Z -> to_int (IZR a / IZR b) = (a / b)%Z.
Proof.
  intros A B. pose proof (IZR_le _ _ A) as Ra. pose proof (IZR_lt _ _ B) as Rb.
  rewrite to_int_nonneg by (apply Rmult_le_pos; [lra|left; apply Rinv_0_lt_compat; lra]).
  apply Int_part_unique. pose proof (Z.div_mod a b ltac:(lia)) as D. pose proof (Z.mod_pos_bound a b B) as M.
  assert (E1 : (b * (a / b) <= a)%Z) by lia. assert (E2 : (a < b * (a / b) + b)%Z) by lia.
  apply IZR_le in E1. apply IZR_lt in E2. rewrite plus_IZR in E2. rewrite mult_IZR in E1, E2.
  split; [apply Rmult_le_reg_r with (IZR b)|apply Rmult_lt_reg_r with (IZR b)]; try exact Rb;
    replace (IZR a / IZR b * IZR b) with (IZR a) by (field; lra); lra.
Qed.
Lemma per_cell_thm nf gx gy : (0 < nf)%Z -> (0 < gx)%Z -> (0 < gy)%Z -> per_cell nf gx gy = Ok (nf / (gx * gy) + 1)%Z.
Proof.
  intros Hn Hx Hy. unfold per_cell. assert (0 < gx * gy)%Z by nia. destruct (Z.eqb_spec (gx * gy) 0); [lia|]. cbn [negb guard].
  rewrite to_int_div by lia. reflexivity.
Qed.

(** ** one cell *)
Definition shift (x y : Z) (k : kpt) : kpt := mkKP (fst (kp_pt k) + IZR x, snd (kp_pt k) + IZR y) (kp_resp k).
Definition open_px (fr : frame) (k : kpt) : bool := negb (fr_mask fr (Int_part (fst (kp_pt k))) (Int_part (snd (kp_pt k)))).
Lemma keep_pts_eq fr x y l : (forall k, In k l -> 0 <= fst (kp_pt k) + IZR x < IZR (fr_w fr) /\ 0 <= snd (kp_pt k) + IZR y < IZR (fr_h fr)) ->
  keep_pts fr x y l = Ok (filter (open_px fr) (map (shift x y) l)).
Proof.
  induction l as [|k l IH]; intros H; [reflexivity|]. cbn [keep_pts map filter].
  destruct (H k (or_introl eq_refl)) as [[A1 A2] [B1 B2]]. rewrite IH by (intros; apply H; right; assumption).
  cbn [fst snd]. rewrite !to_int_nonneg by assumption.
  assert (U0 : (0 <= Int_part (fst (kp_pt k) + IZR x))%Z) by (apply Int_part_le; lra). assert (U1 : (Int_part (fst (kp_pt k) + IZR x) < fr_w fr)%Z) by (apply Int_part_lt; lra).
  assert (V0 : (0 <= Int_part (snd (kp_pt k) + IZR y))%Z) by (apply Int_part_le; lra). assert (V1 : (Int_part (snd (kp_pt k) + IZR y) < fr_h fr)%Z) by (apply Int_part_lt; lra).
  assert (Op : open_px fr (shift x y k) = negb (fr_mask fr (Int_part (fst (kp_pt k) + IZR x)) (Int_part (snd (kp_pt k) + IZR y)))) by reflexivity. rewrite Op.
  destruct (Z.ltb_spec (Int_part (fst (kp_pt k) + IZR x)) 0); [lia|]. destruct (Z.ltb_spec (fr_w fr) (Int_part (fst (kp_pt k) + IZR x))); [lia|].
  destruct (Z.ltb_spec (Int_part (snd (kp_pt k) + IZR y)) 0); [lia|]. destruct (Z.ltb_spec (fr_h fr) (Int_part (snd (kp_pt k) + IZR y))); [lia|].
  destruct (Z.ltb_spec (Int_part (fst (kp_pt k) + IZR x)) (fr_w fr)); [|lia]. destruct (Z.ltb_spec (Int_part (snd (kp_pt k) + IZR y)) (fr_h fr)); [|lia].
  cbn [orb andb guard]. destruct (fr_mask fr (Int_part (fst (kp_pt k) + IZR x)) (Int_part (snd (kp_pt k) + IZR y))); reflexivity.
Qed.
Lemma firstn_in' {A} n (l : list A) x : In x (firstn n l) -> In x l.
Proof. revert l. induction n; intros [|a l]; cbn; try tauto. intros [H|H]; auto. Qed.
Lemma sorted_split {A} (R : A -> A -> Prop) n l : StronglySorted R l -> forall a b, In a (firstn n l) -> In b (skipn n l) -> R a b.
Proof.
  revert l. induction n as [|n IH]; intros [|c l] S a b; cbn [firstn skipn In]; try tauto.
  inversion S as [|? ? S1 F]; subst. intros [->|Ia] Ib; [|exact (IH l S1 a b Ia Ib)].
  rewrite Forall_forall in F. apply F. rewrite <- (firstn_skipn n l). apply in_or_app. right. exact Ib.
Qed.
Lemma filter_length_le' {A} (f : A -> bool) l : (length (filter f l) <= length l)%nat.
Proof. induction l as [|a l IH]; cbn; [lia|]. destruct (f a); cbn; lia. Qed.
Lemma cell_thm fr fast srt n sx sy g : fast_ok fast -> sort_ok srt -> (0 <= fst g)%Z -> (0 <= snd g)%Z -> (0 < sx)%Z -> (0 < sy)%Z -> (0 <= n)%Z ->
  exists part, cell_pts fr fast srt n sx sy g = Ok part /\ cell_result fr fast n sx sy g part.
Proof.
  intros Fo So Gx Gy Sx Sy Hn. unfold cell_pts, cell_result, fits.
  set (x := (fst g * sx)%Z). set (y := (snd g * sy)%Z).
  assert (X0 : (0 <= x)%Z) by (unfold x; nia). assert (Y0 : (0 <= y)%Z) by (unfold y; nia).
  destruct (Z.ltb_spec (fr_w fr) (x + sx)) as [W|W]; [exists []; split; [reflexivity|split; [reflexivity|lia]]|].
  destruct (Z.ltb_spec (fr_h fr) (y + sy)) as [H|H]; [exists []; split; [reflexivity|split; [reflexivity|lia]]|].
  cbn [orb]. destruct (Z.leb_spec 0 x); [|lia]. destruct (Z.leb_spec 0 y); [|lia]. cbn [andb guard].
  set (c := fast x y sx sy). destruct (So c) as [P S]. set (s := srt c) in *.
  pose proof W as W'. pose proof H as H'. apply IZR_le in W, H. rewrite plus_IZR in W, H. pose proof (IZR_le _ _ X0) as RX. pose proof (IZR_le _ _ Y0) as RY.
  assert (Rg : forall k, In k c -> inside x y sx sy (kp_pt (shift x y k))).
  { intros k Hk. destruct (Fo x y sx sy k Hk) as [[A1 A2] [B1 B2]]. unfold inside, shift. cbn. lra. }
  assert (Rs : forall k, In k s -> In k c) by (intros k; apply Permutation_in, Permutation_sym; exact P).
  exists (filter (open_px fr) (map (shift x y) (firstn (Z.to_nat n) s))). split.
  { apply keep_pts_eq. intros k Hk. apply firstn_in', Rs, Rg in Hk. unfold inside, shift in Hk. cbn in Hk. lra. }
  split; [intros N; exfalso; apply N; split; assumption|]. intros _.
  assert (Cc : corners fast sx sy g = map (shift x y) c) by reflexivity. rewrite Cc.
  split; [|split].
  - pose proof (filter_length_le' (open_px fr) (map (shift x y) (firstn (Z.to_nat n) s))) as L. rewrite map_length in L. pose proof (firstn_le_length (Z.to_nat n) s). lia.
  - intros k Hk. apply filter_In in Hk. destruct Hk as [Hk O]. apply in_map_iff in Hk. destruct Hk as (k' & <- & Hk'). apply firstn_in', Rs in Hk'.
    split; [apply in_map; exact Hk'|]. split; [apply Rg; exact Hk'|]. unfold open_px, masked in *. destruct (fr_mask _ _ _); [discriminate|discriminate].
  - intros d Hd. apply in_map_iff in Hd. destruct Hd as (d' & <- & Hd'). apply (Permutation_in _ P) in Hd'.
    rewrite <- (firstn_skipn (Z.to_nat n) s) in Hd'. apply in_app_or in Hd'. destruct Hd' as [F|F].
    + destruct (open_px fr (shift x y d')) eqn:O; [left; apply filter_In; split; [apply in_map; exact F|exact O]|]. right. left. unfold open_px in O. unfold masked. destruct (fr_mask _ _ _); [reflexivity|discriminate].
    + right. right. pose proof (sorted_split _ (Z.to_nat n) s S) as So'.
      destruct (in_split _ _ F) as (r1 & r2 & E). exists (map (shift x y) (firstn (Z.to_nat n) s)), (map (shift x y) (r1 ++ r2)). split; [|split].
      * rewrite <- map_cons, <- map_app. apply Permutation_map. rewrite P. rewrite <- (firstn_skipn (Z.to_nat n) s) at 1. apply Permutation_app_head. rewrite E. apply Permutation_sym, Permutation_middle.
      * rewrite map_length, firstn_length_le; [lia|]. assert (length (skipn (Z.to_nat n) s) <> 0)%nat by (rewrite E, app_length; cbn; lia). rewrite skipn_length in H2. lia.
      * intros t Ht. apply in_map_iff in Ht. destruct Ht as (t' & <- & Ht'). cbn. exact (So' t' d' Ht' F).
Qed.
Lemma cells_thm fr fast srt n sx sy locs : fast_ok fast -> sort_ok srt -> (forall g, In g locs -> 0 <= fst g /\ 0 <= snd g)%Z -> (0 < sx)%Z -> (0 < sy)%Z -> (0 <= n)%Z ->
  exists parts, all_cells fr fast srt n sx sy locs = Ok (concat parts) /\ Forall2 (cell_result fr fast n sx sy) locs parts.
Proof.
  intros Fo So G Sx Sy Hn. induction locs as [|g locs IH]; [exists []; split; [reflexivity|constructor]|].
  destruct IH as (parts & E & F); [intros; apply G; right; assumption|]. destruct (G g (or_introl eq_refl)) as [Gx Gy].
  destruct (cell_thm fr fast srt n sx sy g Fo So Gx Gy Sx Sy Hn) as (p & E1 & F1). exists (p :: parts). split; [|constructor; assumption].
  cbn [all_cells]. rewrite E1. cbn [obind]. rewrite E. reflexivity.
Qed.
Lemma extract_thm fr fast srt nf gx gy locs : (0 < nf)%Z -> (0 < gx <= fr_w fr)%Z -> (0 < gy <= fr_h fr)%Z -> fast_ok fast -> sort_ok srt ->
  (forall g, In g locs -> 0 <= fst g /\ 0 <= snd g)%Z ->
  exists gx' gy' parts, grid_used nf gx gy gx' gy' /\ extract fr fast srt nf gx gy locs = Ok (concat parts) /\
    Forall2 (cell_result fr fast (nf / (gx' * gy') + 1) (fr_w fr / gx') (fr_h fr / gy'))%Z locs parts.
Proof.
  intros Hn Hx Hy Fo So G. destruct (regrid_thm nf gx gy Hn (proj1 Hx) (proj1 Hy)) as (gx' & gy' & E & U).
  destruct (grid_used_bounds _ _ _ _ _ Hn (proj1 Hx) (proj1 Hy) U) as (Bx & By & _).
  assert (Sx : (0 < fr_w fr / gx')%Z) by (apply Z.div_str_pos; lia). assert (Sy : (0 < fr_h fr / gy')%Z) by (apply Z.div_str_pos; lia).
  assert (N0 : (0 <= nf / (gx' * gy'))%Z) by (apply Z.div_pos; nia).
  destruct (cells_thm fr fast srt (nf / (gx' * gy') + 1)%Z (fr_w fr / gx')%Z (fr_h fr / gy')%Z locs Fo So G Sx Sy ltac:(lia)) as (parts & Ep & Fp).
  exists gx', gy', parts. split; [exact U|]. split; [|exact Fp].
  unfold extract. rewrite E. cbn [obind]. rewrite per_cell_thm by lia. cbn [obind].
  rewrite !Z.quot_div_nonneg by lia.
  destruct (Z.ltb_spec 0 gx'); [|lia]. destruct (Z.ltb_spec 0 gy'); [|lia]. destruct (Z.ltb_spec 0 (nf / (gx' * gy') + 1)); [|lia].
  destruct (Z.ltb_spec 0 (fr_w fr / gx')); [|lia]. destruct (Z.ltb_spec 0 (fr_h fr / gy')); [|lia]. exact Ep.
Qed.
Lemma write_back_ok ps : forall qs, length qs = length ps -> exists l, write_back ps qs = Ok l /\ map kp_pt l = qs /\ map kp_resp l = map kp_resp ps.
Proof.
  induction ps as [|k ps IH]; intros [|q qs] L; try discriminate; [exists []; repeat split|].
  destruct (IH qs) as (l & E & M1 & M2); [cbn in L; lia|]. exists (mkKP q (kp_resp k) :: l). cbn [write_back]. rewrite E. cbn. rewrite M1, M2. repeat split.
Qed.
Lemma griding_defined fr fast srt sub nf gx gy locs : (0 < nf)%Z -> (0 < gx <= fr_w fr)%Z -> (0 < gy <= fr_h fr)%Z -> fast_ok fast -> sort_ok srt ->
  (forall l, length (sub l) = length l) -> (forall g, In g locs -> 0 <= fst g /\ 0 <= snd g)%Z ->
  exists l, perform_griding fr fast srt sub nf gx gy locs = Ok l /\
    (locs = [] /\ l = [] \/ exists e, extract fr fast srt nf gx gy locs = Ok e /\ (e = [] /\ l = [] \/ map kp_pt l = sub (map kp_pt e)) /\ map kp_resp l = map kp_resp e).
Proof.
  intros Hn Hx Hy Fo So Sl G. destruct (extract_thm fr fast srt nf gx gy locs Hn Hx Hy Fo So G) as (gx' & gy' & parts & _ & E & _).
  destruct locs as [|g locs]; [exists []; split; [reflexivity|left; auto]|]. unfold perform_griding. rewrite E. cbn [obind].
  set (e := concat parts). destruct e as [|k e'] eqn:Ee; [exists []; split; [reflexivity|right; exists []; repeat split; auto]|].
  rewrite <- Ee. destruct (write_back_ok e (sub (map kp_pt e))) as (l & El & M1 & M2); [rewrite Sl, map_length; reflexivity|].
  exists l. split; [exact El|right; exists e; repeat split; auto].
Qed.

(** ** the call *)
Lemma upto_in n i : In i (upto n) <-> (0 <= i < n)%Z.
Proof.
  unfold upto. rewrite in_map_iff. split.
  - intros (k & <- & H). apply in_seq in H. lia.
  - intros H. exists (Z.to_nat i). split; [lia|]. apply in_seq. lia.
Qed.
Lemma upto_nodup n : NoDup (upto n).
Proof. unfold upto. apply FinFun.Injective_map_NoDup; [intros a b; lia|apply seq_NoDup]. Qed.
Lemma cell_eqb_eq a b : cell_eqb a b = true <-> a = b.
Proof. unfold cell_eqb. rewrite andb_true_iff, !Z.eqb_eq. destruct a, b; cbn. split; [intros [-> ->]; reflexivity|intros E; injection E; auto]. Qed.
Lemma grid_cell_in o fr p g : (0 < ko_gx o)%Z -> (0 < ko_gy o)%Z -> (0 < fr_w fr)%Z -> (0 < fr_h fr)%Z ->
  grid_cell o fr p = g <-> in_cell fr (ko_gx o) (ko_gy o) g p.
Proof.
  intros Hx Hy Hw Hh. apply IZR_lt in Hx, Hy, Hw, Hh. unfold grid_cell, in_cell.
  assert (K : forall a s z, 0 < s -> Int_part (a / s) = z <-> IZR z * s <= a < (IZR z + 1) * s).
  { intros a s z S. split.
    - intros <-. destruct (Int_part_bounds (a / s)) as [A B]. apply (Rmult_le_compat_r s) in A; [|lra]. apply (Rmult_lt_compat_r s) in B; [|lra].
      replace (a / s * s) with a in A, B by (field; lra). lra.
    - intros [A B]. apply Int_part_unique. split; [apply Rmult_le_reg_r with s|apply Rmult_lt_reg_r with s]; try exact S; replace (a / s * s) with a by (field; lra); lra. }
  destruct g as [a b]. cbn [fst snd]. rewrite <- !K by (apply Rdiv_lt_0_compat; lra). split; [intros E; injection E; auto|intros [-> ->]; reflexivity].
Qed.
Lemma count_crowded o fr ps g n : (0 < ko_gx o)%Z -> (0 < ko_gy o)%Z -> (0 < fr_w fr)%Z -> (0 < fr_h fr)%Z ->
  (n <= Z.of_nat (length (filter (fun p => cell_eqb g (grid_cell o fr p)) ps)))%Z <-> crowded fr (ko_gx o) (ko_gy o) ps g n.
Proof.
  intros Hx Hy Hw Hh. set (f := fun p => cell_eqb g (grid_cell o fr p)).
  assert (Ff : forall p, f p = true <-> in_cell fr (ko_gx o) (ko_gy o) g p).
  { intros p. unfold f. rewrite cell_eqb_eq, <- grid_cell_in by assumption. split; auto. }
  set (idx := filter (fun i => match nth_error ps i with Some p => f p | None => false end) (seq 0 (length ps))).
  assert (Li : length idx = length (filter f ps)).
  { unfold idx. clear. assert (G : forall ps k pre, length pre = k ->
      length (filter (fun i => match nth_error (pre ++ ps) i with Some p => f p | None => false end) (seq k (length ps))) = length (filter f ps)).
    { clear. induction ps as [|p ps IH]; intros k pre L; [reflexivity|]. cbn [seq length filter].
      rewrite nth_error_app2 by lia. rewrite L, Nat.sub_diag. cbn [nth_error].
      specialize (IH (S k) (pre ++ [p])). rewrite <- app_assoc in IH. cbn [app] in IH. rewrite app_length in IH. cbn in IH. specialize (IH ltac:(lia)).
      destruct (f p); cbn [length]; rewrite IH; reflexivity. }
    exact (G ps 0%nat [] eq_refl). }
  split.
  - intros H. exists idx. split; [apply NoDup_filter, seq_NoDup|]. split; [lia|].
    intros i Hi. apply filter_In in Hi. destruct Hi as [_ Hi]. destruct (nth_error ps i) as [p|] eqn:E; [|discriminate]. exists p. split; [reflexivity|apply Ff; exact Hi].
  - intros (qs & Nd & L & Q). assert (incl qs idx).
    { intros i Hi. destruct (Q i Hi) as (p & E & C). apply filter_In. split; [apply in_seq; pose proof (proj1 (nth_error_Some ps i) ltac:(congruence)); lia|]. rewrite E. apply Ff, C. }
    pose proof (NoDup_incl_length Nd H). lia.
Qed.
(** the number of points a cell needs *)
Definition req (o : kopts) : Z := Z.max 1 ((ko_feats o / (ko_gx o * ko_gy o) + 1) / 2).
Lemma flat_map_if_nodup {A} (f : A -> bool) (l : list A) : NoDup l -> NoDup (flat_map (fun a => if f a then [a] else []) l).
Proof.
  induction 1 as [|a l Na Nd IH]; [constructor|]. cbn [flat_map]. destruct (f a); [|exact IH]. cbn. constructor; [|exact IH].
  intros H. apply in_flat_map in H. destruct H as (b & Hb & Hi). destruct (f b); [|contradiction]. destruct Hi as [->|[]]. contradiction.
Qed.
Lemma locs_nodup (P : Z -> Z -> bool) ys xs : NoDup ys -> NoDup xs ->
  NoDup (flat_map (fun x => flat_map (fun y => if P x y then [(x, y)] else []) ys) xs).
Proof.
  intros Ny. induction 1 as [|x xs Nx Nd IH]; [constructor|]. cbn [flat_map].
  assert (N1 : forall l, NoDup l -> NoDup (flat_map (fun y => if P x y then [(x, y)] else []) l)).
  { clear. induction 1 as [|y l Na Nd IH]; [constructor|]. cbn [flat_map]. destruct (P x y); [|exact IH]. cbn. constructor; [|exact IH].
    intros H. apply in_flat_map in H. destruct H as (b & Hb & Hi). destruct (P x b); [|contradiction]. destruct Hi as [E|[]]. injection E as <-. contradiction. }
  assert (D : forall e, In e (flat_map (fun y => if P x y then [(x, y)] else []) ys) -> ~ In e (flat_map (fun x => flat_map (fun y => if P x y then [(x, y)] else []) ys) xs)).
  { intros e He Hf. apply in_flat_map in He. destruct He as (y & _ & He). destruct (P x y); [|contradiction]. destruct He as [<-|[]].
    apply in_flat_map in Hf. destruct Hf as (x' & Hx' & Hf). apply in_flat_map in Hf. destruct Hf as (y' & _ & Hf). destruct (P x' y'); [|contradiction]. destruct Hf as [E|[]]. injection E as -> ->. contradiction. }
  specialize (N1 ys Ny). revert N1 D. generalize (flat_map (fun y => if P x y then [(x, y)] else []) ys). intros l N1 D.
  induction N1 as [|e l Ne Nl IHl]; [exact IH|]. cbn. constructor; [|apply IHl; intros; apply D; right; assumption].
  intros H. apply in_app_or in H. destruct H as [H|H]; [contradiction|exact (D e (or_introl eq_refl) H)].
Qed.
Lemma valid_thm o fr mg ps : (0 < ko_feats o)%Z -> (0 < ko_gx o)%Z -> (0 < ko_gy o)%Z -> (0 < fr_w fr)%Z -> (0 < fr_h fr)%Z ->
  exists locs, valid_locs o fr mg ps = Ok locs /\ NoDup locs /\
    forall g, In g locs <-> (0 <= fst g < ko_gx o /\ 0 <= snd g < ko_gy o)%Z /\ ((255 < req o)%Z \/ ~ crowded fr (ko_gx o) (ko_gy o) ps g (req o)) /\ mg (fst g) (snd g) <> 255%Z.
Proof.
  intros Hn Hx Hy Hw Hh. unfold valid_locs. rewrite per_cell_thm by assumption. cbn [obind].
  assert (Rq : Z.max 1 (to_int (1 / 2 * IZR (ko_feats o / (ko_gx o * ko_gy o) + 1))) = req o).
  { unfold req. f_equal. rewrite <- (to_int_div (ko_feats o / (ko_gx o * ko_gy o) + 1) 2); [|assert (0 <= ko_feats o / (ko_gx o * ko_gy o))%Z by (apply Z.div_pos; nia); lia|lia]. f_equal. lra. }
  rewrite Rq. eexists. split; [reflexivity|]. split; [apply locs_nodup; apply upto_nodup|].
  intros [gx gy]. cbn [fst snd]. rewrite in_flat_map. split.
  - intros (x & Ix & H). apply in_flat_map in H. destruct H as (y & Iy & H).
    destruct (_ && _)%bool eqn:B in H; [|contradiction]. destruct H as [E|[]]. injection E as -> ->. apply upto_in in Ix, Iy.
    apply andb_true_iff in B. destruct B as [B1 B2]. apply negb_true_iff, Z.eqb_neq in B2. apply Z.ltb_lt in B1.
    split; [split; assumption|]. split; [|exact B2]. destruct (Z.lt_ge_cases 255 (req o)) as [L|L]; [left; exact L|right]. intros C. apply count_crowded in C; try assumption. unfold grid_count in B1. lia.
  - intros ([Ix Iy] & C & M). exists gx. split; [apply upto_in; exact Ix|]. apply in_flat_map. exists gy. split; [apply upto_in; exact Iy|].
    assert (B : ((grid_count o fr ps (gx, gy) <? req o) && negb (mg gx gy =? 255))%Z%bool = true); [|rewrite B; left; reflexivity].
    apply andb_true_iff. split; [|apply negb_true_iff, Z.eqb_neq; exact M]. apply Z.ltb_lt. unfold grid_count.
    destruct (Z.lt_ge_cases (Z.of_nat (length (filter (fun p => cell_eqb (gx, gy) (grid_cell o fr p)) ps))) (req o)) as [L|L]; [lia|].
    apply count_crowded in L; try assumption. destruct C as [C|C]; [|contradiction]. eapply Z.le_lt_trans; [apply Z.le_min_l|exact C].
Qed.
