(** Theorems of C97 and C98. *)
From Coq Require Import Reals List Arith ZArith Bool Lia Lra Permutation Sorted.
From Verif Require Import RBool Outcome DbModel TrackModel TrackSpec TrackProofs GridModel GridSpec GridProofs.
Import ListNotations.
Open Scope R_scope.

Lemma search_thm o fr fast srt mg ps : (0 < ko_feats o)%Z -> (0 < ko_gx o <= fr_w fr)%Z -> (0 < ko_gy o <= fr_h fr)%Z -> fast_ok fast -> sort_ok srt ->
  exists gx' gy' locs parts, search o fr fast srt mg ps = Ok (concat parts) /\ grid_used (ko_feats o) (ko_gx o) (ko_gy o) gx' gy' /\ NoDup locs /\
    (forall g, In g locs <-> (0 <= fst g < ko_gx o /\ 0 <= snd g < ko_gy o)%Z /\
       ((255 < Z.max 1 ((ko_feats o / (ko_gx o * ko_gy o) + 1) / 2))%Z \/ ~ crowded fr (ko_gx o) (ko_gy o) ps g (Z.max 1 ((ko_feats o / (ko_gx o * ko_gy o) + 1) / 2))) /\ mg (fst g) (snd g) <> 255%Z) /\
    Forall2 (cell_result (mask_updated o fr ps) fast (ko_feats o / (gx' * gy') + 1) (fr_w fr / gx') (fr_h fr / gy'))%Z locs parts.
Proof.
  intros Hn Hx Hy Fo So. destruct (valid_thm o fr mg ps Hn (proj1 Hx) (proj1 Hy) ltac:(lia) ltac:(lia)) as (locs & E & Nd & L).
  destruct (extract_thm (mask_updated o fr ps) fast srt (ko_feats o) (ko_gx o) (ko_gy o) locs Hn Hx Hy Fo So) as (gx' & gy' & parts & U & Ee & F).
  { intros g Hg. apply L in Hg. lia. }
  exists gx', gy', locs, parts. split; [|split; [exact U|split; [exact Nd|split; [exact L|exact F]]]].
  unfold search. rewrite E. cbn [obind]. destruct locs as [|g locs]; [|exact Ee]. inversion F. reflexivity.
Qed.
Lemma mask_thm o fr ps q : 0 <= fst q -> 0 <= snd q ->
  masked (mask_updated o fr ps) q <-> masked fr q \/ exists p, In p ps /\ square o fr p q.
Proof.
  intros A B. unfold masked, mask_updated. cbn [fr_mask]. rewrite orb_true_iff, existsb_exists.
  assert (K : forall p, ((0 <=? to_int (fst p) - ko_px o) && (to_int (fst p) + ko_px o <? fr_w fr) && (0 <=? to_int (snd p) - ko_px o) && (to_int (snd p) + ko_px o <? fr_h fr) &&
       (to_int (fst p) - ko_px o <=? Int_part (fst q)) && (Int_part (fst q) <=? to_int (fst p) + ko_px o) && (to_int (snd p) - ko_px o <=? Int_part (snd q)) && (Int_part (snd q) <=? to_int (snd p) + ko_px o))%Z%bool = true <-> square o fr p q).
  { intros p. unfold square. rewrite (to_int_nonneg (fst q)), (to_int_nonneg (snd q)) by assumption. rewrite !andb_true_iff, !Z.leb_le, !Z.ltb_lt. lia. }
  split; (intros [H|(p & Hp & Hq)]; [left; exact H|right; exists p; split; [exact Hp|apply K; exact Hq]]).
Qed.
Lemma exact_cells fr gx gy g p : (0 < gx)%Z -> (0 < gy)%Z -> (0 < fr_w fr)%Z -> (0 < fr_h fr)%Z -> (gx | fr_w fr)%Z -> (gy | fr_h fr)%Z -> (0 <= fst g < gx)%Z -> (0 <= snd g < gy)%Z ->
  fits fr (fr_w fr / gx) (fr_h fr / gy) g /\ (inside (fst g * (fr_w fr / gx)) (snd g * (fr_h fr / gy)) (fr_w fr / gx) (fr_h fr / gy) p <-> in_cell fr gx gy g p).
Proof.
  intros Hx Hy Hw Hh [a Ea] [b Eb] Gx Gy. unfold fits, inside, in_cell. rewrite Ea, Eb. rewrite !Z.div_mul by lia. split; [split; nia|].
  apply IZR_lt in Hx, Hy. rewrite !mult_IZR.
  replace (IZR a * IZR gx / IZR gx) with (IZR a) by (field; lra). replace (IZR b * IZR gy / IZR gy) with (IZR b) by (field; lra). lra.
Qed.
Lemma Forall2_in_r {A B} (P : A -> B -> Prop) l m y : Forall2 P l m -> In y m -> exists x, In x l /\ P x y.
Proof. induction 1 as [|x0 y0 l m H F IH]; cbn; [tauto|]. intros [->|I0]; [exists x0; auto|]. destruct (IH I0) as (x & Hx & Px). exists x. auto. Qed.
Lemma Forall2_in_l {A B} (P : A -> B -> Prop) l m x : Forall2 P l m -> In x l -> exists y, In y m /\ P x y.
Proof. induction 1 as [|x0 y0 l m H F IH]; cbn; [tauto|]. intros [->|I0]; [exists y0; auto|]. destruct (IH I0) as (y & Hy & Py). exists y. auto. Qed.
Lemma fits_dec fr sx sy g : {fits fr sx sy g} + {~ fits fr sx sy g}.
Proof. unfold fits. destruct (Z_le_dec (fst g * sx + sx) (fr_w fr)), (Z_le_dec (snd g * sy + sy) (fr_h fr)); [left|right|right|right]; tauto. Qed.
Lemma part_fits fr fast n sx sy g part k : cell_result fr fast n sx sy g part -> In k part -> fits fr sx sy g.
Proof. intros [A _] H. destruct (fits_dec fr sx sy g) as [F|F]; [exact F|]. rewrite (A F) in H. contradiction. Qed.

(** with a feature for every cell: nothing is found beyond the last whole cell *)
Lemma edge_thm o fr fast srt mg ps l k : (ko_gx o * ko_gy o <= ko_feats o)%Z -> (0 < ko_gx o <= fr_w fr)%Z -> (0 < ko_gy o <= fr_h fr)%Z -> fast_ok fast -> sort_ok srt ->
  search o fr fast srt mg ps = Ok l -> In k l ->
  0 <= fst (kp_pt k) < IZR (ko_gx o * (fr_w fr / ko_gx o)) /\ 0 <= snd (kp_pt k) < IZR (ko_gy o * (fr_h fr / ko_gy o)).
Proof.
  intros Hc Hx Hy Fo So E Hk. destruct (search_thm o fr fast srt mg ps ltac:(nia) Hx Hy Fo So) as (gx' & gy' & locs & parts & E' & U & Nd & L & F).
  rewrite E in E'. injection E' as ->. destruct U as [(_ & -> & ->)|(U & _)]; [|lia].
  apply in_concat in Hk. destruct Hk as (part & Hp & Hk). destruct (Forall2_in_r _ _ _ _ F Hp) as (g & Hg & C).
  pose proof (part_fits _ _ _ _ _ _ _ _ C Hk) as Fi. destruct C as [_ C]. destruct (C Fi) as (_ & In_ & _). destruct (In_ k Hk) as (_ & [I1 I2] & _).
  apply L in Hg. destruct Hg as ([Gx Gy] & _).
  assert (Sx : (0 < fr_w fr / ko_gx o)%Z) by (apply Z.div_str_pos; lia). assert (Sy : (0 < fr_h fr / ko_gy o)%Z) by (apply Z.div_str_pos; lia).
  assert (A1 : (0 <= fst g * (fr_w fr / ko_gx o))%Z) by nia. assert (A2 : (0 <= snd g * (fr_h fr / ko_gy o))%Z) by nia.
  assert (B1 : (fst g * (fr_w fr / ko_gx o) + fr_w fr / ko_gx o <= ko_gx o * (fr_w fr / ko_gx o))%Z) by nia.
  assert (B2 : (snd g * (fr_h fr / ko_gy o) + fr_h fr / ko_gy o <= ko_gy o * (fr_h fr / ko_gy o))%Z) by nia.
  apply IZR_le in A1, A2, B1, B2. rewrite plus_IZR in B1, B2. lra.
Qed.
(** ... and if the cells divide the image a new point is in a cell with too few points, and not near a kept one *)
Lemma free_thm o fr fast srt mg ps l k : (ko_gx o * ko_gy o <= ko_feats o)%Z -> (0 < ko_gx o <= fr_w fr)%Z -> (0 < ko_gy o <= fr_h fr)%Z -> (ko_gx o | fr_w fr)%Z -> (ko_gy o | fr_h fr)%Z ->
  fast_ok fast -> sort_ok srt -> search o fr fast srt mg ps = Ok l -> In k l ->
  ~ masked fr (kp_pt k) /\ (forall p, In p ps -> ~ square o fr p (kp_pt k)) /\
  exists g, (0 <= fst g < ko_gx o /\ 0 <= snd g < ko_gy o)%Z /\ in_cell fr (ko_gx o) (ko_gy o) g (kp_pt k) /\
    ((255 < Z.max 1 ((ko_feats o / (ko_gx o * ko_gy o) + 1) / 2))%Z \/ ~ crowded fr (ko_gx o) (ko_gy o) ps g (Z.max 1 ((ko_feats o / (ko_gx o * ko_gy o) + 1) / 2))) /\ mg (fst g) (snd g) <> 255%Z.
Proof.
  intros Hc Hx Hy Dx Dy Fo So E Hk. destruct (edge_thm o fr fast srt mg ps l k Hc Hx Hy Fo So E Hk) as [[P1 _] [P2 _]].
  destruct (search_thm o fr fast srt mg ps ltac:(nia) Hx Hy Fo So) as (gx' & gy' & locs & parts & E' & U & Nd & L & F).
  rewrite E in E'. injection E' as ->. destruct U as [(_ & -> & ->)|(U & _)]; [|lia].
  apply in_concat in Hk. destruct Hk as (part & Hp & Hk). destruct (Forall2_in_r _ _ _ _ F Hp) as (g & Hg & C).
  pose proof (part_fits _ _ _ _ _ _ _ _ C Hk) as Fi. destruct C as [_ C]. destruct (C Fi) as (_ & In_ & _). destruct (In_ k Hk) as (_ & I12 & M).
  apply L in Hg. destruct Hg as ([Gx Gy] & Cr & Mg). rewrite mask_thm in M by assumption.
  split; [tauto|]. split; [intros p Hp' Sq; apply M; right; exists p; auto|].
  exists g. split; [split; assumption|]. split; [|split; assumption]. apply (exact_cells fr (ko_gx o) (ko_gy o) g (kp_pt k)); try lia; try assumption.
Qed.
(** ... and a corner of such a cell is found unless it is masked, near a kept one, or enough others of the cell are as strong *)
Lemma found_thm o fr fast srt mg ps l g : (ko_gx o * ko_gy o <= ko_feats o)%Z -> (0 < ko_gx o <= fr_w fr)%Z -> (0 < ko_gy o <= fr_h fr)%Z ->
  fast_ok fast -> sort_ok srt -> search o fr fast srt mg ps = Ok l -> (0 <= fst g < ko_gx o)%Z -> (0 <= snd g < ko_gy o)%Z -> mg (fst g) (snd g) <> 255%Z ->
  ~ crowded fr (ko_gx o) (ko_gy o) ps g (Z.max 1 ((ko_feats o / (ko_gx o * ko_gy o) + 1) / 2)) ->
  let cs := corners fast (fr_w fr / ko_gx o) (fr_h fr / ko_gy o) g in
  forall d, In d cs -> In d l \/ masked fr (kp_pt d) \/ (exists p, In p ps /\ square o fr p (kp_pt d)) \/
    exists top rest, Permutation cs (top ++ d :: rest) /\ Z.of_nat (length top) = (ko_feats o / (ko_gx o * ko_gy o) + 1)%Z /\ forall t, In t top -> kp_resp d <= kp_resp t.
Proof.
  intros Hc Hx Hy Fo So E Gx Gy Mg Cr cs d Hd.
  destruct (search_thm o fr fast srt mg ps ltac:(nia) Hx Hy Fo So) as (gx' & gy' & locs & parts & E' & U & Nd & L & F).
  rewrite E in E'. injection E' as ->. destruct U as [(_ & -> & ->)|(U & _)]; [|lia].
  assert (Hg : In g locs) by (apply L; repeat split; try lia; auto). destruct (Forall2_in_l _ _ _ _ F Hg) as (part & Hp & [_ C]).
  assert (Sx : (0 < fr_w fr / ko_gx o)%Z) by (apply Z.div_str_pos; lia). assert (Sy : (0 < fr_h fr / ko_gy o)%Z) by (apply Z.div_str_pos; lia).
  pose proof (Z.mul_div_le (fr_w fr) (ko_gx o) ltac:(lia)) as D1. pose proof (Z.mul_div_le (fr_h fr) (ko_gy o) ltac:(lia)) as D2.
  assert (Fi : fits (mask_updated o fr ps) (fr_w fr / ko_gx o) (fr_h fr / ko_gy o) g) by (unfold fits; cbn [mask_updated fr_w fr_h]; split; nia).
  destruct (C Fi) as (_ & _ & D). destruct (D d Hd) as [H|[H|H]]; [left; apply in_concat; exists part; auto| |right; right; right; exact H].
  apply in_map_iff in Hd. destruct Hd as (d' & <- & Hd). apply Fo in Hd. destruct Hd as [[X _] [Y _]].
  apply mask_thm in H; [right; tauto| |]; cbn [kp_pt fst snd]; [assert (0 <= fst g * (fr_w fr / ko_gx o))%Z as Q by nia|assert (0 <= snd g * (fr_h fr / ko_gy o))%Z as Q by nia]; apply IZR_le in Q; lra.
Qed.

(** ** FAST corners of a fixed set and a sort *)
Definition in_reg (x y sx sy : Z) (k : kpt) : bool :=
  (Rleb (IZR x) (fst (kp_pt k)) && Rltb (fst (kp_pt k)) (IZR x + IZR sx) && Rleb (IZR y) (snd (kp_pt k)) && Rltb (snd (kp_pt k)) (IZR y + IZR sy))%bool.
Definition fast_of (cs : list kpt) (x y sx sy : Z) : list kpt := map (shift (- x) (- y)) (filter (in_reg x y sx sy) cs).
Lemma fast_of_ok cs : fast_ok (fast_of cs).
Proof.
  intros x y sx sy k H. apply in_map_iff in H. destruct H as (k' & <- & H). apply filter_In in H. destruct H as [_ H]. unfold in_reg in H.
  rewrite !andb_true_iff, !Rleb_true, !Rltb_true in H. unfold shift. cbn. rewrite !opp_IZR. lra.
Qed.
Fixpoint ins (k : kpt) (l : list kpt) : list kpt := match l with [] => [k] | a :: r => if Rltb (kp_resp k) (kp_resp a) then a :: ins k r else k :: l end.
Fixpoint isort (l : list kpt) : list kpt := match l with [] => [] | a :: r => ins a (isort r) end.
Lemma ins_perm k l : Permutation (k :: l) (ins k l).
Proof. induction l as [|a l IH]; cbn; [reflexivity|]. destruct (Rltb _ _); [|reflexivity]. rewrite perm_swap. constructor. exact IH. Qed.
Lemma ins_sorted k l : StronglySorted (fun a b => kp_resp b <= kp_resp a) l -> StronglySorted (fun a b => kp_resp b <= kp_resp a) (ins k l).
Proof.
  induction 1 as [|a l S IH F]; cbn; [repeat constructor|]. rewrite Forall_forall in F. destruct (Rltb_spec (kp_resp k) (kp_resp a)).
  - constructor; [exact IH|]. apply Forall_forall. intros b Hb. apply (Permutation_in _ (Permutation_sym (ins_perm k l))) in Hb. destruct Hb as [<-|Hb]; [lra|auto].
  - constructor; [constructor; [exact S|apply Forall_forall; exact F]|]. apply Forall_forall. intros b [<-|Hb]; [lra|]. specialize (F b Hb). lra.
Qed.
Lemma isort_ok : sort_ok isort.
Proof.
  intros l. induction l as [|a l [P S]]; cbn; [split; [reflexivity|constructor]|]. split; [|apply ins_sorted; exact S].
  rewrite <- ins_perm. constructor. exact P.
Qed.

(** ** what does not hold *)
Lemma in_reg_t x y sx sy k : IZR x <= fst (kp_pt k) < IZR x + IZR sx -> IZR y <= snd (kp_pt k) < IZR y + IZR sy -> in_reg x y sx sy k = true.
Proof. intros A B. unfold in_reg. rewrite !andb_true_iff, !Rleb_true, !Rltb_true. lra. Qed.
Lemma single {A} (l : list A) a : NoDup l -> (forall x, In x l <-> x = a) -> l = [a].
Proof.
  intros Nd H. destruct l as [|b l]; [exfalso; apply (proj2 (H a) eq_refl)|]. assert (b = a) by (apply H; left; reflexivity). subst b.
  destruct l as [|c l]; [reflexivity|]. assert (c = a) by (apply H; right; left; reflexivity). subst c. inversion Nd as [|? ? Na _]. exfalso. apply Na. left. reflexivity.
Qed.
Lemma no_crowd fr gx gy g n : (0 < n)%Z -> ~ crowded fr gx gy [] g n.
Proof. intros Hn (qs & _ & L & Q). destruct qs as [|i qs]; [cbn in L; lia|]. destruct (Q i (or_introl eq_refl)) as (p & E & _). destruct i; discriminate. Qed.
Definition gex_fr : frame := mkFrame 100 100 (fun u v => (u =? 20)%Z).
Definition gex_cs : list kpt := [mkKP (30, 30) 5; mkKP (20, 30) 9; mkKP (20, 40) 8].
Definition gex_o (nf g : Z) : kopts := mkKO nf 0 false 1 g g 10.
Lemma gex_sorted : isort (fast_of gex_cs 0 0 100 100) = map (shift 0 0) [mkKP (20, 30) 9; mkKP (20, 40) 8; mkKP (30, 30) 5].
Proof.
  unfold fast_of, gex_cs. cbn [filter]. rewrite !in_reg_t by (cbn; lra). cbn [map isort ins shift kp_resp kp_pt fst snd Z.opp].
  assert (T : forall a b : R, a < b -> Rltb a b = true) by (intros; apply Rltb_true; assumption). assert (F : forall a b : R, b <= a -> Rltb a b = false) by (intros; apply Rltb_false; assumption).
  rewrite (F 9 8) by lra. cbn [ins kp_resp]. change (kp_resp (shift 0 0 (mkKP (30, 30) 5))) with 5. change (kp_resp (shift 0 0 (mkKP (20, 30) 9))) with 9. change (kp_resp (shift 0 0 (mkKP (20, 40) 8))) with 8. rewrite (T 5 9), (T 5 8) by lra. reflexivity.
Qed.
(** masked corners use up the places of a cell *)
Lemma quota_refuted : exists o fr fast srt mg d, (ko_gx o * ko_gy o <= ko_feats o)%Z /\ (0 < ko_gx o <= fr_w fr)%Z /\ (0 < ko_gy o <= fr_h fr)%Z /\ (ko_gx o | fr_w fr)%Z /\ (ko_gy o | fr_h fr)%Z /\ fast_ok fast /\ sort_ok srt /\
  (forall u v, mg u v <> 255%Z) /\ In d (corners fast (fr_w fr / ko_gx o) (fr_h fr / ko_gy o) (0, 0)%Z) /\ ~ masked fr (kp_pt d) /\ search o fr fast srt mg [] = Ok [].
Proof.
  exists (gex_o 1 1), gex_fr, (fast_of gex_cs), isort, (fun _ _ => 0%Z), (mkKP (30, 30) 5). cbn [ko_gx ko_gy ko_feats fr_w fr_h gex_fr gex_o].
  split; [lia|]. split; [lia|]. split; [lia|]. split; [exists 100%Z; reflexivity|]. split; [exists 100%Z; reflexivity|]. split; [apply fast_of_ok|]. split; [apply isort_ok|]. split; [discriminate|].
  assert (P : forall k, In k (isort (fast_of gex_cs 0 0 100 100)) -> In k (fast_of gex_cs 0 0 100 100)) by (intros k; apply Permutation_in, Permutation_sym; apply (isort_ok (fast_of gex_cs 0 0 100 100))).
  split; [|split].
  - unfold corners. cbn [fst snd Z.mul]. change (100 / 1)%Z with 100%Z. apply in_map_iff. exists (mkKP (30 + 0, 30 + 0) 5). cbn [kp_pt kp_resp fst snd]. split; [repeat f_equal; lra|].
    apply P. rewrite gex_sorted. right. right. left. reflexivity.
  - unfold masked, gex_fr. cbn [kp_pt fst snd fr_mask]. rewrite (Int_part_unique 30 30) by lra. discriminate.
  - destruct (valid_thm (gex_o 1 1) gex_fr (fun _ _ => 0%Z) []) as (locs & E & Nd & L); cbn [ko_gx ko_gy ko_feats fr_w fr_h gex_fr gex_o]; try lia.
    assert (locs = [(0, 0)%Z]) as ->.
    { apply single; [exact Nd|]. intros [a b]. rewrite L. cbn [gex_o ko_gx ko_gy fst snd]. split; [intros ([A B] & _); f_equal; lia|]. intros Q. injection Q as -> ->. split; [lia|]. split; [right; apply no_crowd; unfold req; lia|discriminate]. }
    unfold search. change (gex_o 1 1) with (gex_o 1 1) in E. rewrite E. cbn [obind]. unfold extract. change (regrid (ko_feats (gex_o 1 1)) (ko_gx (gex_o 1 1)) (ko_gy (gex_o 1 1))) with (@Ok (Z * Z) (1, 1)%Z). cbn [obind].
    rewrite per_cell_thm by (cbn; lia). cbn [obind]. change (ko_feats (gex_o 1 1) / (1 * 1) + 1)%Z with 2%Z.
    change (guard ((0 <? 1) && (0 <? 1) && (0 <? 2))%Z UB) with (fun k : outcome (list kpt) => k). cbv beta.
    change (Z.quot (fr_w (mask_updated (gex_o 1 1) gex_fr [])) 1) with 100%Z. change (Z.quot (fr_h (mask_updated (gex_o 1 1) gex_fr [])) 1) with 100%Z.
    cbv zeta. change (guard ((0 <? 100) && (0 <? 100))%Z UB) with (fun k : outcome (list kpt) => k). cbv beta. cbn [all_cells].
    assert (C : cell_pts (mask_updated (gex_o 1 1) gex_fr []) (fast_of gex_cs) isort 2 100 100 (0, 0)%Z = Ok []); [|rewrite C; reflexivity].
    unfold cell_pts. cbn [fst snd Z.mul]. change (0 + 100)%Z with 100%Z. cbn [mask_updated fr_w fr_h gex_fr]. change ((100 <? 100) || (100 <? 100))%Z%bool with false. cbv iota.
    change (guard ((0 <=? 0) && (0 <=? 0))%Z UB) with (fun k : outcome (list kpt) => k). cbv beta. rewrite gex_sorted. change (Z.to_nat 2) with 2%nat. cbn [map firstn shift kp_pt kp_resp fst snd].
    rewrite keep_pts_eq by (cbn [In]; intros k [<-|[<-|[]]]; cbn; lra).
    assert (O : forall v r, open_px (mask_updated (gex_o 1 1) gex_fr []) (shift 0 0 (shift 0 0 (mkKP (20, v) r))) = false).
    { intros v r. unfold open_px, shift, mask_updated, gex_fr. cbn [kp_pt fst snd fr_mask existsb]. rewrite (Int_part_unique (20 + 0 + 0) 20) by lra. reflexivity. }
    cbn [map filter]. unfold gex_fr in O. cbn [mask_updated fr_w fr_h] in O. unfold mask_updated in O. cbn [fr_w fr_h fr_mask] in O. rewrite !O. reflexivity.
Qed.
(** with fewer features than cells the grid of the search is not the one the cells were chosen in: a corner in an empty cell is never looked at *)
Lemma few_refuted : exists o fr fast srt mg g d, (0 < ko_feats o)%Z /\ (0 < ko_gx o <= fr_w fr)%Z /\ (0 < ko_gy o <= fr_h fr)%Z /\ (ko_gx o | fr_w fr)%Z /\ (ko_gy o | fr_h fr)%Z /\ fast_ok fast /\ sort_ok srt /\
  (forall u v, mg u v <> 255%Z) /\ exists ps, ~ crowded fr (ko_gx o) (ko_gy o) ps g 1 /\ In d (corners fast (fr_w fr / ko_gx o) (fr_h fr / ko_gy o) g) /\ ~ masked fr (kp_pt d) /\ (forall p, In p ps -> ~ square o fr p (kp_pt d)) /\ search o fr fast srt mg ps = Ok [].
Proof.
  set (fr := mkFrame 100 100 (fun _ _ => false)). set (d := mkKP (75, 75) 5).
  exists (gex_o 1 2), fr, (fast_of [d]), isort, (fun _ _ => 0%Z), (1, 1)%Z, d. cbn [ko_gx ko_gy ko_feats fr_w fr_h fr gex_o].
  split; [lia|]. split; [lia|]. split; [lia|]. split; [exists 50%Z; reflexivity|]. split; [exists 50%Z; reflexivity|]. split; [apply fast_of_ok|]. split; [apply isort_ok|]. split; [discriminate|].
  exists [(20, 20)]. split; [|split; [|split; [discriminate|split]]].
  - intros (qs & _ & L & Q). destruct qs as [|i qs]; [cbn in L; lia|]. destruct (Q i (or_introl eq_refl)) as (p & E & [A _]). destruct i as [|[|i]]; try discriminate. injection E as <-. cbn in A. lra.
  - unfold corners. cbn [fst snd]. change (100 / 2)%Z with 50%Z. change (1 * 50)%Z with 50%Z. unfold fast_of. cbn [filter]. rewrite in_reg_t by (cbn; lra). left. unfold shift, d. cbn. repeat f_equal; lra.
  - intros p [<-|[]]. unfold square. cbn [fst snd d kp_pt gex_o ko_px]. rewrite !to_int_nonneg by lra. rewrite (Int_part_unique 20 20), (Int_part_unique 75 75) by lra. cbn. lia.
  - destruct (search_thm (gex_o 1 2) fr (fast_of [d]) isort (fun _ _ => 0%Z) [(20, 20)]) as (gx' & gy' & locs & parts & E & U & Nd & L & F); cbn [ko_gx ko_gy ko_feats fr_w fr_h fr gex_o]; try lia; [apply fast_of_ok|apply isort_ok|].
    assert (gx' = 1 /\ gy' = 1)%Z as [-> ->].
    { destruct U as [(U & _)|(_ & G0 & (G1 & G2) & G3 & G4)]; cbn [ko_gx ko_gy ko_feats gex_o] in *; [lia|]. assert (gy' = 1)%Z by nia. subst. split; lia. }
    rewrite E. f_equal. assert (Ne : forall part, In part parts -> part = []); [|clear -Ne; induction parts as [|p r IH]; [reflexivity|]; cbn; rewrite (Ne p (or_introl eq_refl)); apply IH; intros; apply Ne; right; assumption].
    intros part Hp. destruct (Forall2_in_r _ _ _ _ F Hp) as (g & Hg & C & _). apply C. intros Fi. unfold fits in Fi. cbn [mask_updated fr_w fr_h fr] in Fi. change (100 / 1)%Z with 100%Z in Fi.
    apply L in Hg. destruct Hg as ([Gx Gy] & Cr & _). assert (g = (0, 0)%Z) as -> by (destruct g; cbn in *; f_equal; lia).
    destruct Cr as [Cr|Cr]; [cbn in Cr; lia|]. apply Cr. exists [0%nat]. split; [repeat constructor; intros []|]. split; [cbn; lia|]. intros i [<-|[]]. exists (20, 20). split; [reflexivity|]. unfold in_cell. cbn. lra.
Qed.
(** no features wanted *)
Lemma zero_refuted : exists o fr fast srt sub mg, dims_ok o fr = true /\ ko_feats o = 0%Z /\ fast_ok fast /\ sort_ok srt /\ (forall l, length (sub l) = length l) /\ detections o fr fast srt sub mg [] = UB.
Proof.
  exists (gex_o 0 1), gex_fr, (fast_of []), isort, (fun l => l), (fun _ _ => 0%Z). split; [reflexivity|]. split; [reflexivity|]. split; [apply fast_of_ok|]. split; [apply isort_ok|]. split; [reflexivity|].
  unfold detections, valid_locs. unfold per_cell at 1. cbn [gex_o ko_feats ko_gx ko_gy]. change (negb (1 * 1 =? 0)%Z) with true. cbn [guard obind].
  rewrite (to_int_div 0 (1 * 1)) by lia. change (0 / (1 * 1) + 1)%Z with 1%Z. cbn [upto].
  replace (Z.max 1 (to_int (1 / 2 * 1))) with 1%Z by (rewrite to_int_nonneg by lra; rewrite (Int_part_unique (1 / 2 * 1) 0) by lra; reflexivity).
  unfold upto. change (Z.to_nat 1) with 1%nat. cbn [seq map flat_map Z.of_nat app]. unfold grid_count. cbn [filter length Z.of_nat]. change ((Z.min 255 0 <? 1)%Z && negb (0 =? 255)%Z)%bool with true. cbv iota.
  cbn [app perform_griding]. unfold extract, regrid. change (0 <? 1 * 1)%Z with true. change (negb (1 =? 0)%Z && negb (1 =? 0)%Z)%bool with true. cbv iota. cbn [guard].
  replace (0 / (1 / 1)) with 0 by lra. destruct (Rleb_spec 0 0); [|lra]. cbn [guard]. rewrite sqrt_0.
  assert (C0 : ceilZ 0 = 0%Z) by (unfold ceilZ; rewrite (Int_part_unique (- 0) 0) by lra; reflexivity). rewrite C0.
  replace (0 * (1 / 1)) with 0 by lra. rewrite C0. reflexivity.
Qed.
Lemma grid_thm nf gx gy : (0 < nf)%Z -> (0 < gx)%Z -> (0 < gy)%Z ->
  exists gx' gy', regrid nf gx gy = Ok (gx', gy') /\ grid_used nf gx gy gx' gy' /\ (0 < gx' <= gx /\ 0 < gy' <= gy /\ (nf < gx * gy -> nf <= gx' * gy') /\ nf < gx' * gy' * (nf / (gx' * gy') + 1))%Z.
Proof.
  intros Hn Hx Hy. destruct (regrid_thm nf gx gy Hn Hx Hy) as (gx' & gy' & E & U). destruct (grid_used_bounds _ _ _ _ _ Hn Hx Hy U) as (A & B & C).
  exists gx', gy'. repeat split; try assumption; try lia. pose proof (Z.mul_succ_div_gt nf (gx' * gy') ltac:(nia)). lia.
Qed.
(** one corner in an empty image is found *)
Lemma found_ex : exists l, search (gex_o 1 1) (mkFrame 100 100 (fun _ _ => false)) (fast_of [mkKP (75, 75) 5]) isort (fun _ _ => 0%Z) [] = Ok l /\ In (mkKP (75, 75) 5) l.
Proof.
  set (fr := mkFrame 100 100 (fun _ _ => false)). set (d := mkKP (75, 75) 5).
  destruct (search_thm (gex_o 1 1) fr (fast_of [d]) isort (fun _ _ => 0%Z) []) as (gx' & gy' & locs & parts & E & _); cbn [ko_gx ko_gy ko_feats fr_w fr_h fr gex_o]; try lia; [apply fast_of_ok|apply isort_ok|].
  exists (concat parts). split; [exact E|].
  assert (Hc : corners (fast_of [d]) 100 100 (0, 0)%Z = [d]).
  { unfold corners, fast_of. cbn [fst snd Z.mul filter]. rewrite in_reg_t by (cbn; lra). unfold shift, d. cbn. repeat f_equal; lra. }
  destruct (found_thm (gex_o 1 1) fr (fast_of [d]) isort (fun _ _ => 0%Z) [] (concat parts) (0, 0)%Z) with (d := d) as [H|[H|[(p & [] & _)|(top & rest & P & L & _)]]];
    cbn [ko_gx ko_gy ko_feats fr_w fr_h fr gex_o fst snd]; try lia; try discriminate; try apply fast_of_ok; try apply isort_ok; try exact E.
  - apply no_crowd. lia.
  - change (100 / 1)%Z with 100%Z. rewrite Hc. left. reflexivity.
  - exact H.
  - change (fr_w fr / ko_gx (gex_o 1 1))%Z with 100%Z in P. change (fr_h fr / ko_gy (gex_o 1 1))%Z with 100%Z in P. rewrite Hc in P. apply Permutation_length in P. rewrite app_length in P. cbn in P, L. lia.
Qed.
