(** Proofs of C38: the refinement. *)
From Coq Require Import Reals Lra Lia Psatz List Bool Arith.
From Coquelicot Require Import Coquelicot.
From Verif Require Import RBool Outcome GeoModel GeoSpec GeoProofs JacSo3 Calc3 HelpRep HelpThms FeatModel FeatSpec FeatProofs FeatThms.
Import ListNotations.
Open Scope R_scope.

(** *** termination *)
Section Loop.
Variables (solve : m3 -> v3 -> v3) (o : fopts) (RA : m3) (pA : v3) (ws : list view).
Lemma gn_step_cases g : match gn_step solve o RA pA ws g with
  | inr g' => cost RA pA ws (g_x g') = NaN -> False
  | inl g' => (g_runs g' = S (g_runs g) /\ g_lam g' = g_lam g / fo_mult o) \/ (g_runs g' = g_runs g /\ g_lam g' = g_lam g * fo_mult o)
  end.
Proof.
  unfold gn_step. destruct (if g_re g then _ else _) as [[H gr]|]; cbv zeta.
  - set (d := solve _ _). destruct (ext_leb (cost RA pA ws (v3add (g_x g) d)) (g_cost g)) eqn:L; cbn [andb]; [|right; cbn; auto].
    destruct (small_drop _ _ _); [cbn [g_x]; intros N; rewrite N in L; discriminate|left; cbn; auto].
  - cbn [ext_leb andb]. right. cbn. auto.
Qed.
Lemma gn_terminates : fo_mult o <> 0 -> forall n k g, fo_lam_max o <= g_lam g * fo_mult o ^ k -> (2 * (fo_runs o - g_runs g) + k <= n)%nat -> exists g', gn_loop solve o RA pA ws n g = Some g'.
Proof.
  intros HM. induction n as [|n IH]; intros k g L N; cbn [gn_loop]; unfold gn_goes_on.
  - destruct (Nat.ltb_spec (g_runs g) (fo_runs o)); [lia|]. cbn [andb]. eauto.
  - destruct (Nat.ltb_spec (g_runs g) (fo_runs o)) as [A|A]; cbn [andb]; [|eauto]. destruct (Rltb_spec (g_lam g) (fo_lam_max o)) as [B|B]; cbn [andb]; [|eauto].
    destruct (Rltb (fo_min_dx o) (g_eps g)); [|eauto]. pose proof (gn_step_cases g) as C. destruct (gn_step solve o RA pA ws g) as [g'|g']; [|eauto].
    destruct C as [(C1 & C2)|(C1 & C2)].
    + apply (IH (S k)); [|lia]. rewrite C2. cbn [pow]. replace (g_lam g / fo_mult o * (fo_mult o * fo_mult o ^ k)) with (g_lam g * fo_mult o ^ k) by (field; exact HM). exact L.
    + destruct k as [|k]; [cbn in L; lra|]. apply (IH k); [|lia]. rewrite C2. cbn [pow] in L. rewrite Rmult_assoc. exact L.
Qed.
Lemma gn_more n m g g' : gn_loop solve o RA pA ws n g = Some g' -> (n <= m)%nat -> gn_loop solve o RA pA ws m g = Some g'.
Proof.
  revert m g. induction n as [|n IH]; intros m g; destruct m as [|m]; cbn [gn_loop]; intros E L; try lia; destruct (gn_goes_on o g); try discriminate; try exact E.
  destruct (gn_step solve o RA pA ws g); [apply IH; [exact E|lia]|exact E].
Qed.

(** *** descent *)
Lemma ext_leb_fin a c : ext_leb a (Fin c) = true -> exists x, a = Fin x /\ x <= c.
Proof. destruct a as [x| |]; cbn; try discriminate. destruct (Rleb_spec x c); [eauto|discriminate]. Qed.
Lemma gn_descent n : forall g c g', g_cost g = cost RA pA ws (g_x g) -> g_cost g = Fin c -> gn_loop solve o RA pA ws n g = Some g' -> exists c', cost RA pA ws (g_x g') = Fin c' /\ c' <= c.
Proof.
  induction n as [|n IH]; intros g c g' I F; cbn [gn_loop]; destruct (gn_goes_on o g); try discriminate; try (intros E; injection E as <-; exists c; rewrite <- I; split; [exact F|lra]).
  assert (ST : match gn_step solve o RA pA ws g with inr g1 => exists c', cost RA pA ws (g_x g1) = Fin c' /\ c' <= c
    | inl g1 => g_cost g1 = cost RA pA ws (g_x g1) /\ exists c', g_cost g1 = Fin c' /\ c' <= c end).
  { unfold gn_step. destruct (if g_re g then _ else _) as [[H gr]|]; cbv zeta.
    - set (d := solve _ _). destruct (ext_leb (cost RA pA ws (v3add (g_x g) d)) (g_cost g)) eqn:L; cbn [andb].
      + rewrite F in L. apply ext_leb_fin in L. destruct L as (x & L1 & L2). destruct (small_drop _ _ _); cbn [g_x g_cost]; eauto.
      + cbn [g_x g_cost]. split; [exact I|]. exists c. split; [exact F|lra].
    - cbn [ext_leb andb g_x g_cost]. split; [exact I|]. exists c. split; [exact F|lra]. }
  destruct (gn_step solve o RA pA ws g) as [g1|g1]; intros E.
  - destruct ST as (I1 & c1 & F1 & L1). destruct (IH g1 c1 g' I1 F1 E) as (c2 & C2 & L2). exists c2. split; [exact C2|lra].
  - injection E as <-. exact ST.
Qed.

(** *** the residuals are reprojection errors *)
Hypotheses (HA : is_rot RA) (HW : forall w, In w ws -> is_rot (w_R w)).
Lemma hi_form w x : vz x <> 0 -> hi RA pA w x = v3scal (vz x) (m3v (w_R w) (v3sub (inv_point RA pA x) (w_p w))).
Proof.
  intros Z. assert (E1 : hi RA pA w x = v3add (m3v (rel_R RA w) (V3 (vx x) (vy x) 1)) (v3scal (vz x) (rel_A RA pA w))).
  { unfold hi. cbv zeta. destruct (rel_R RA w), (rel_A RA pA w). apply v3_ext; cbn; ring. }
  assert (E2 : rel_A RA pA w = m3v (w_R w) (v3sub pA (w_p w))).
  { unfold rel_A, rel_p, rel_R. rewrite m3v_neg1, m3v_mul, rot_forth by exact HA. rewrite <- m3v_neg. f_equal. destruct pA, (w_p w). apply v3_ext; cbn; ring. }
  rewrite E1, E2. unfold rel_R, inv_point. rewrite m3v_mul, <- !m3v_scal, <- m3v_add. f_equal.
  assert (E3 : V3 (vx x) (vy x) 1 = v3scal (vz x) (V3 (vx x / vz x) (vy x / vz x) (1 / vz x))) by (apply v3_ext; cbn; field; exact Z).
  rewrite E3, m3v_scal. set (q := m3v (m3tr RA) _). clearbody q. destruct q, pA, (w_p w). apply v3_ext; cbn; ring.
Qed.
Lemma sq_err_fin w x : vz x <> 0 -> match sq_err RA pA x w with Fin e => vz (m3v (w_R w) (v3sub (inv_point RA pA x) (w_p w))) <> 0 /\ e = reproj2 (inv_point RA pA x) (vm w)
  | _ => vz (m3v (w_R w) (v3sub (inv_point RA pA x) (w_p w))) = 0 end.
Proof.
  intros Z. unfold sq_err. cbv zeta. rewrite hi_form by exact Z. cbn [reproj2 vm]. set (q := m3v _ _). clearbody q. unfold v3scal. cbn [GeoModel.vx GeoModel.vy GeoModel.vz].
  destruct (Reqb_spec (vz x * vz q) 0) as [E|E].
  - apply Rmult_integral in E. destruct E as [E|E]; [contradiction|]. destruct (_ || _)%bool; exact E.
  - assert (N : vz q <> 0) by (intros K; apply E; rewrite K; ring). split; [exact N|]. cbv zeta.
    replace (vz x * vx q / (vz x * vz q)) with (vx q / vz q) by (field; auto). replace (vz x * vy q / (vz x * vz q)) with (vy q / vz q) by (field; auto). reflexivity.
Qed.
Lemma cost_fold x : vz x <> 0 -> forall e0 vs, (forall e, fold_left (fun e w => ext_add e (sq_err RA pA x w)) vs (Fin e0) = Fin e ->
     off_planes (map vm vs) (inv_point RA pA x) /\ e = e0 + reproj_cost (map vm vs) (inv_point RA pA x)) /\
  (off_planes (map vm vs) (inv_point RA pA x) -> fold_left (fun e w => ext_add e (sq_err RA pA x w)) vs (Fin e0) = Fin (e0 + reproj_cost (map vm vs) (inv_point RA pA x))).
Proof.
  intros Z e0 vs. revert e0. induction vs as [|w vs IH]; intros e0; cbn [fold_left map]; unfold reproj_cost; cbn [map rsum fold_right].
  - split; [intros e E; injection E as <-; split; [intros ? ? ? []|ring]|intros _; f_equal; ring].
  - pose proof (sq_err_fin w x Z) as S0. destruct (sq_err RA pA x w) as [e1| |].
    + destruct S0 as (N & ->). destruct (IH (e0 + reproj2 (inv_point RA pA x) (vm w))) as (A & B). cbn [ext_add]. split.
      * intros e E. destruct (A e E) as (A1 & A2). split; [|rewrite A2; unfold reproj_cost, rsum; ring].
        intros M p uv [I|I]; [injection I as <- <- <-; exact N|exact (A1 M p uv I)].
      * intros OP. rewrite B; [f_equal; unfold reproj_cost, rsum; ring|]. intros M p uv I. apply (OP M p uv). right. exact I.
    + assert (X : forall v, In v [Inf; NaN] -> forall l, In (fold_left (fun e w => ext_add e (sq_err RA pA x w)) l v) [Inf; NaN]).
      { intros v Iv l. revert v Iv. induction l as [|w' l IL]; intros v Iv; [exact Iv|]. cbn [fold_left]. apply IL. destruct Iv as [<-|[<-|[]]]; destruct (sq_err RA pA x w'); cbn; auto. }
      cbn [ext_add]. split; [intros e E; specialize (X Inf (or_introl eq_refl) vs); rewrite E in X; destruct X as [X|[X|[]]]; discriminate|].
      intros OP. exfalso. apply (OP (w_R w) (w_p w) (w_u w, w_v w)); [left; reflexivity|exact S0].
    + assert (X : forall l, fold_left (fun e w => ext_add e (sq_err RA pA x w)) l NaN = NaN) by (induction l as [|w' l IL]; [reflexivity|cbn [fold_left]; destruct (sq_err RA pA x w'); exact IL]).
      cbn [ext_add]. split; [intros e E; rewrite X in E; discriminate|]. intros OP. exfalso. apply (OP (w_R w) (w_p w) (w_u w, w_v w)); [left; reflexivity|exact S0].
Qed.
Lemma cost_is x : vz x <> 0 -> (forall e, cost RA pA ws x = Fin e -> off_planes (map vm ws) (inv_point RA pA x) /\ e = reproj_cost (map vm ws) (inv_point RA pA x)) /\
  (off_planes (map vm ws) (inv_point RA pA x) -> cost RA pA ws x = Fin (reproj_cost (map vm ws) (inv_point RA pA x))).
Proof.
  intros Z. destruct (cost_fold x Z 0 ws) as (A & B). split; [intros e E; destruct (A e E) as (A1 & A2); split; [exact A1|lra]|intros OP; unfold cost; rewrite (B OP); f_equal; ring].
Qed.
End Loop.
Lemma inv_start RA pA p : vz p <> 0 -> inv_point RA pA (V3 (vx p / vz p) (vy p / vz p) (1 / vz p)) = v3add (m3v (m3tr RA) p) pA.
Proof. intros Z. unfold inv_point. do 2 f_equal. destruct p as [a b c]. cbn in *. apply v3_ext; cbn; field; auto. Qed.

Lemma refine_split solve hQ o cs f ac t p n pf pg : refine solve hQ o cs f ac t p n = Ok (Some (Some (pf, pg))) -> exists RA pA ws g, cs ac t = Some (RA, pA) /\ views_of cs f = Ok ws /\
  gn_loop solve o RA pA ws n (gn_start o RA pA ws p) = Some g /\ vz (g_x g) <> 0 /\ pf = V3 (vx (g_x g) / vz (g_x g)) (vy (g_x g) / vz (g_x g)) (1 / vz (g_x g)) /\
  fo_min o <= vz pf <= fo_max o /\ pg = v3add (m3v (m3tr RA) pf) pA /\ max_baseline (hQ pf) RA pA ws <> 0 /\ v3norm pf / max_baseline (hQ pf) RA pA ws <= fo_base o.
Proof.
  unfold refine. destruct (cs ac t) as [[RA pA]|]; cbn [look obind]; [|discriminate]. destruct (views_of cs f) as [ws| |]; cbn [obind]; try discriminate.
  destruct (gn_loop _ _ _ _ _ _ _) as [g|] eqn:G; [|discriminate]. destruct (Reqb_spec (vz (g_x g)) 0) as [Z|Z]; [discriminate|]. set (q := V3 _ _ _). cbv zeta.
  destruct (Rltb_spec (vz q) (fo_min o)) as [A|A]; cbn [orb]; [discriminate|]. destruct (Rltb_spec (fo_max o) (vz q)) as [B|B]; cbn [orb]; [discriminate|].
  destruct (Reqb_spec (max_baseline (hQ q) RA pA ws) 0) as [C|C]; [discriminate|]. destruct (Rltb_spec (fo_base o) (v3norm q / max_baseline (hQ q) RA pA ws)) as [D|D]; [discriminate|].
  intros E. injection E as E1 E2. exists RA, pA, ws, g. do 4 (split; [auto|]). split; [symmetry; exact E1|]. rewrite <- E1. split; [lra|]. split; [symmetry; exact E2|]. split; [exact C|lra].
Qed.
Lemma refine_descent solve hQ o cs f ac t p n pf pg RA pA ms : refine solve hQ o cs f ac t p n = Ok (Some (Some (pf, pg))) -> rotations cs -> cs ac t = Some (RA, pA) -> all_meas cs f = Some ms ->
  vz p <> 0 -> let P0 := v3add (m3v (m3tr RA) p) pA in off_planes ms P0 -> off_planes ms pg /\ reproj_cost ms pg <= reproj_cost ms P0.
Proof.
  intros E RO EC AM Z P0 OP. destruct (refine_split _ _ _ _ _ _ _ _ _ _ _ E) as (RA' & pA' & ws & g & E1 & E2 & E3 & E4 & E5 & _ & E7 & _). rewrite EC in E1. injection E1 as <- <-.
  pose proof (views_meas cs f) as VM. rewrite E2, AM in VM. injection VM as ->. pose proof (RO _ _ _ _ EC) as HA. set (x0 := V3 (vx p / vz p) (vy p / vz p) (1 / vz p)).
  assert (Z0 : vz x0 <> 0) by (unfold x0; cbn; unfold Rdiv; rewrite Rmult_1_l; apply Rinv_neq_0_compat; exact Z). pose proof (inv_start RA pA p Z) as IS. fold x0 P0 in IS.
  destruct (cost_is RA pA ws HA x0 Z0) as (_ & C0). rewrite IS in C0. specialize (C0 OP).
  destruct (gn_descent solve o RA pA ws n (gn_start o RA pA ws p) _ g eq_refl C0 E3) as (c & C1 & C2).
  destruct (cost_is RA pA ws HA (g_x g) E4) as (C3 & _). destruct (C3 c C1) as (C4 & C5). assert (PG : pg = inv_point RA pA (g_x g)) by (rewrite E7, E5; reflexivity). rewrite PG. split; [exact C4|lra].
Qed.

(** *** baseline test *)
Lemma fold_max {A} (h : A -> R) l : forall b, let r := fold_left (fun b w => if Rltb b (h w) then h w else b) l b in
  b <= r /\ (forall w, In w l -> h w <= r) /\ (r = b \/ exists w, In w l /\ r = h w).
Proof.
  induction l as [|a l IH]; intros b; cbn [fold_left]; [cbv zeta; split; [lra|]; split; [intros ? []|auto]|]. destruct (IH (if Rltb b (h a) then h a else b)) as (A1 & A2 & A3). cbv zeta in *.
  revert A1 A2 A3. destruct (Rltb_spec b (h a)) as [L|L]; intros A1 A2 A3.
  - split; [lra|]. split; [intros w [<-|I]; [exact A1|auto]|]. right. destruct A3 as [A3|(w & I & A3)]; [exists a; split; [left; reflexivity|exact A3]|exists w; split; [right; exact I|exact A3]].
  - split; [exact A1|]. split; [intros w [<-|I]; [lra|auto]|]. destruct A3 as [A3|(w & I & A3)]; [left; exact A3|right; exists w; split; [right; exact I|exact A3]].
Qed.
Lemma house_dist Q p q : house Q -> p <> v3zero -> let M := Q p in
  let y1 := m01 M * vx q + m11 M * vy q + m21 M * vz q in let y2 := m02 M * vx q + m12 M * vy q + m22 M * vz q in sqrt (y1 * y1 + y2 * y2) = off_line p q.
Proof.
  intros H N M y1 y2. destruct (H p N) as (O1 & O2 & k & K). fold M in O1, O2, K. unfold off_line. pose proof (dot_pos p) as DP. assert (D0 : v3dot p p <> 0) by (intros Z; apply N, dot_zero, Z).
  assert (NP : 0 < v3norm p) by (unfold v3norm; apply sqrt_lt_R0; lra).
  assert (E : y1 * y1 + y2 * y2 = v3dot (v3cross p q) (v3cross p q) / v3dot p p).
  { assert (L : v3dot q q = (k * v3dot p q) * (k * v3dot p q) + (y1 * y1 + y2 * y2) /\ k * k * v3dot p p = 1).
    { injection K as K1 K2 K3. split.
      - assert (T : v3dot q q = v3dot (m3v (m3tr M) q) (m3v (m3tr M) q)).
        { assert (T1 : v3dot (m3v (m3tr M) q) (m3v (m3tr M) q) = v3dot q (m3v (m3mul M (m3tr M)) q)) by (destruct M, q; unfold v3dot; cbn; ring). rewrite T1, O1, m3v_id. reflexivity. }
        rewrite T. unfold y1, y2. unfold v3dot at 1. unfold m3v, m3tr. cbn. fold M. rewrite K1, K2, K3. unfold v3dot. ring.
      - apply (f_equal m00) in O2. cbn in O2. rewrite K1, K2, K3 in O2. unfold v3dot. lra. }
    destruct L as (L1 & L2). assert (KK : k * k = / v3dot p p) by (apply (Rmult_eq_reg_r (v3dot p p)); [rewrite L2; field; exact D0|exact D0]).
    assert (LG : v3dot (v3cross p q) (v3cross p q) = v3dot p p * v3dot q q - v3dot p q * v3dot p q) by (destruct p, q; unfold v3dot; cbn; ring).
    rewrite LG. apply (Rmult_eq_reg_r (v3dot p p)); [|exact D0]. replace (y1 * y1 + y2 * y2) with (v3dot q q - k * k * (v3dot p q * v3dot p q)) by lra. rewrite KK. field. exact D0. }
  rewrite E, sqrt_div_alt by lra. reflexivity.
Qed.
Lemma cross_rot_norm M a b : is_rot M -> v3norm (v3cross (m3v M a) (m3v M b)) = v3norm (v3cross a b).
Proof. intros H. unfold v3norm. rewrite <- rot_cross by exact H. rewrite dot_rot by exact H. reflexivity. Qed.
Lemma refine_checks solve hQ o cs f ac t p n pf pg RA pA ms : refine solve hQ o cs f ac t p n = Ok (Some (Some (pf, pg))) -> rotations cs -> house hQ -> cs ac t = Some (RA, pA) -> all_meas cs f = Some ms -> 0 < fo_min o ->
  fo_min o <= vz pf <= fo_max o /\ pg = v3add (m3v (m3tr RA) pf) pA /\
  exists m, In m ms /\ let d := off_line (v3sub pg pA) (v3sub (centre m) pA) in 0 < d /\ v3norm (v3sub pg pA) <= fo_base o * d /\ forall m', In m' ms -> off_line (v3sub pg pA) (v3sub (centre m') pA) <= d.
Proof.
  intros E RO HQ EC AM FM. destruct (refine_split _ _ _ _ _ _ _ _ _ _ _ E) as (RA' & pA' & ws & g & E1 & E2 & _ & _ & _ & E6 & E7 & E8 & E9). rewrite EC in E1. injection E1 as <- <-.
  pose proof (views_meas cs f) as VM. rewrite E2, AM in VM. injection VM as ->. pose proof (RO _ _ _ _ EC) as HA. split; [exact E6|]. split; [exact E7|].
  assert (NP : pf <> v3zero) by (intros K; rewrite K in E6; cbn in E6; lra).
  assert (D : v3sub pg pA = m3v (m3tr RA) pf) by (rewrite E7; destruct (m3v (m3tr RA) pf), pA; apply v3_ext; cbn; ring).
  assert (PF : pf = m3v RA (v3sub pg pA)) by (rewrite D, rot_back by exact HA; reflexivity).
  assert (NN : v3norm (v3sub pg pA) = v3norm pf) by (rewrite PF; unfold v3norm; rewrite dot_rot by exact HA; reflexivity).
  assert (OL : forall w, off_line pf (rel_p RA pA w) = off_line (v3sub pg pA) (v3sub (w_p w) pA)).
  { intros w. unfold off_line, rel_p. rewrite NN. rewrite PF at 1. rewrite cross_rot_norm by exact HA. reflexivity. }
  assert (MB : max_baseline (hQ pf) RA pA ws = fold_left (fun b w => if Rltb b (off_line (v3sub pg pA) (v3sub (w_p w) pA)) then off_line (v3sub pg pA) (v3sub (w_p w) pA) else b) ws 0).
  { unfold max_baseline. generalize 0. clear - HQ NP OL. induction ws as [|w ws IH]; intros b; [reflexivity|]. cbn [fold_left]. rewrite IH. f_equal. cbv zeta. rewrite (house_dist hQ pf (rel_p RA pA w) HQ NP), OL. reflexivity. }
  rewrite MB in *. destruct (fold_max (fun w => off_line (v3sub pg pA) (v3sub (w_p w) pA)) ws 0) as (F1 & F2 & F3). cbv zeta beta in *.
  set (b := fold_left _ ws 0) in *. destruct F3 as [F3|(w & I & F3)]; [contradiction|]. exists (vm w). split; [apply (in_map vm); exact I|]. cbn [centre vm]. rewrite <- F3. split; [lra|]. split.
  - rewrite NN. apply (Rmult_le_compat_r b) in E9; [|exact F1]. replace (v3norm pf / b * b) with (v3norm pf) in E9 by (field; exact E8). exact E9.
  - intros m' I'. apply in_map_iff in I'. destruct I' as (w' & <- & I'). apply F2. exact I'.
Qed.

(** *** the normal equations of a step *)
Lemma hi_shift RA pA w x d s : hi RA pA w (shift x d s) = v3add (hi RA pA w x) (v3scal s (V3 (m00 (rel_R RA w) * vx d + m01 (rel_R RA w) * vy d + vz d * vx (rel_A RA pA w))
  (m10 (rel_R RA w) * vx d + m11 (rel_R RA w) * vy d + vz d * vy (rel_A RA pA w)) (m20 (rel_R RA w) * vx d + m21 (rel_R RA w) * vy d + vz d * vz (rel_A RA pA w)))).
Proof. unfold hi, shift. cbv zeta. destruct x, d. apply v3_ext; cbn; ring. Qed.
Lemma ratio_derive a b a1 b1 : b <> 0 -> is_derive (fun s => (a + s * a1) / (b + s * b1)) 0 ((a1 * b - a * b1) / (b * b)).
Proof. intros N. auto_derive; [rewrite Rmult_0_l, Rplus_0_r; exact N|rewrite !Rmult_0_l, !Rplus_0_r; field; exact N]. Qed.
Lemma row_derive RA pA w x d : vz (hi RA pA w x) <> 0 -> let '(h1, h2, _) := gn_rows RA pA x w in
  is_derive (fun s => vx (hi RA pA w (shift x d s)) / vz (hi RA pA w (shift x d s))) 0 (v3dot h1 d) /\ is_derive (fun s => vy (hi RA pA w (shift x d s)) / vz (hi RA pA w (shift x d s))) 0 (v3dot h2 d).
Proof.
  intros N. unfold gn_rows. cbv zeta. set (h := hi RA pA w x) in *. split.
  - eapply is_derive_ext; [intros s; rewrite hi_shift; fold h; unfold v3add, v3scal; cbn [GeoModel.vx GeoModel.vz]; reflexivity|].
    eapply is_derive_eq; [apply ratio_derive; exact N|]. unfold v3dot. cbn [GeoModel.vx GeoModel.vy GeoModel.vz]. field. exact N.
  - eapply is_derive_ext; [intros s; rewrite hi_shift; fold h; unfold v3add, v3scal; cbn [GeoModel.vy GeoModel.vz]; reflexivity|].
    eapply is_derive_eq; [apply ratio_derive; exact N|]. unfold v3dot. cbn [GeoModel.vx GeoModel.vy GeoModel.vz]. field. exact N.
Qed.
Lemma affine_nz a b : a <> 0 -> locally 0 (fun s => a + s * b <> 0).
Proof.
  intros N. assert (C : continuous (fun s => a + s * b) 0) by (apply (ex_derive_continuous (fun s => a + s * b)); auto_derive; exact I).
  apply (C (fun y => y <> 0)). rewrite Rmult_0_l, Rplus_0_r. apply open_neq. exact N.
Qed.
Lemma term_derive RA pA w x d : is_rot RA -> vz x <> 0 -> vz (hi RA pA w x) <> 0 -> let '(h1, h2, r) := gn_rows RA pA x w in
  is_derive (fun s => reproj2 (inv_point RA pA (shift x d s)) (vm w)) 0 (-2 * (fst r * v3dot h1 d + snd r * v3dot h2 d)).
Proof.
  intros HA Z N. pose proof (row_derive RA pA w x d N) as RD. destruct (gn_rows RA pA x w) as [[h1 h2] r] eqn:G.
  assert (ER : r = (w_u w - vx (hi RA pA w x) / vz (hi RA pA w x), w_v w - vy (hi RA pA w x) / vz (hi RA pA w x))) by (unfold gn_rows in G; cbv zeta in G; congruence).
  destruct RD as (D1 & D2). set (f1 := fun s => vx (hi RA pA w (shift x d s)) / vz (hi RA pA w (shift x d s))) in *. set (f2 := fun s => vy (hi RA pA w (shift x d s)) / vz (hi RA pA w (shift x d s))) in *.
  apply (is_derive_ext_loc (fun s => (w_u w - f1 s) * (w_u w - f1 s) + (w_v w - f2 s) * (w_v w - f2 s))).
  - pose proof (affine_nz (vz x) (vz d) Z) as L1. set (dz := m20 (rel_R RA w) * vx d + m21 (rel_R RA w) * vy d + vz d * vz (rel_A RA pA w)). pose proof (affine_nz (vz (hi RA pA w x)) dz N) as L2.
    generalize (filter_and _ _ L1 L2). apply filter_imp. intros s (N1 & N2).
    assert (Z1 : vz (shift x d s) <> 0) by (unfold shift; cbn; exact N1). assert (Z2 : vz (hi RA pA w (shift x d s)) <> 0) by (rewrite hi_shift; cbn; exact N2).
    unfold f1, f2. rewrite hi_form in Z2 |- * by assumption. cbn [reproj2 vm]. set (q := m3v _ _) in *. clearbody q. cbn in Z2 |- *.
    assert (Z3 : vz q <> 0) by (intros K; apply Z2; unfold shift; cbn; rewrite K; ring).
    match goal with |- @eq _ ?a ?b => change (@eq R a b) end. unfold shift in *. cbn in *. field. auto.
  - assert (S0 : shift x d 0 = x) by (unfold shift; destruct x, d; apply v3_ext; cbn; ring).
    assert (F1 : f1 0 = vx (hi RA pA w x) / vz (hi RA pA w x)) by (unfold f1; rewrite S0; reflexivity). assert (F2 : f2 0 = vy (hi RA pA w x) / vz (hi RA pA w x)) by (unfold f2; rewrite S0; reflexivity).
    pose proof (der_minus (fun _ => w_u w) f1 0 _ _ (der_const (w_u w) 0) D1) as M1. pose proof (der_minus (fun _ => w_v w) f2 0 _ _ (der_const (w_v w) 0) D2) as M2.
    eapply is_derive_eq; [apply der_plus; apply der_mult; [exact M1|exact M1|exact M2|exact M2]|]. cbv beta. rewrite F1, F2, ER. cbn [fst snd]. ring.
Qed.
Lemma gn_sums_spec RA pA x : forall ws s t, gn_sums RA pA x ws s = Some t ->
  (forall w, In w ws -> vz (hi RA pA w x) <> 0) /\
  (forall y, v3dot y (snd t) = v3dot y (snd s) + rsum (map (fun w => let '(h1, h2, r) := gn_rows RA pA x w in fst r * v3dot h1 y + snd r * v3dot h2 y) ws)) /\
  (forall y, v3dot y (m3v (fst t) y) = v3dot y (m3v (fst s) y) + rsum (map (fun w => let '(h1, h2, r) := gn_rows RA pA x w in v3dot h1 y * v3dot h1 y + v3dot h2 y * v3dot h2 y) ws)).
Proof.
  induction ws as [|w ws IH]; intros s t; cbn [gn_sums map rsum fold_right].
  - intros E. injection E as <-. split; [intros ? []|]. split; intros; ring.
  - destruct (Reqb_spec (vz (hi RA pA w x)) 0) as [Z|Z]; [discriminate|]. destruct (gn_rows RA pA x w) as [[h1 h2] r]. intros E. destruct (IH _ _ E) as (A & B & C). cbn [fst snd] in *.
    split; [intros w' [<-|I]; [exact Z|auto]|]. unfold rsum in *. split; intros y.
    + rewrite B. destruct (snd s), h1, h2, y. unfold v3dot. cbn. ring.
    + rewrite C. destruct (fst s), h1, h2, y. unfold v3dot. cbn. ring.
Qed.
Lemma rsum_derive {A} (f : A -> R -> R) (df : A -> R) l s : (forall a, In a l -> is_derive (f a) s (df a)) -> is_derive (fun s => rsum (map (fun a => f a s) l)) s (rsum (map df l)).
Proof.
  induction l as [|a l IH]; intros H; cbn [map rsum fold_right]; [apply der_const|]. apply der_plus; [apply H; left; reflexivity|apply IH; intros b I; apply H; right; exact I].
Qed.
Lemma gn_gradient RA pA x ws H g : is_rot RA -> vz x <> 0 -> gn_sums RA pA x ws (M3 0 0 0 0 0 0 0 0 0, v3zero) = Some (H, g) ->
  (forall d, is_derive (fun s => reproj_cost (map vm ws) (inv_point RA pA (shift x d s))) 0 (-2 * v3dot d g)) /\ (forall d, 0 <= v3dot d (m3v H d)).
Proof.
  intros HA Z E. destruct (gn_sums_spec RA pA x ws _ _ E) as (A & B & C). cbn [fst snd] in *. split; intros d.
  - eapply is_derive_ext; [intros s; unfold reproj_cost; rewrite map_map; reflexivity|]. eapply is_derive_eq.
    + apply (rsum_derive (fun w s => reproj2 (inv_point RA pA (shift x d s)) (vm w)) (fun w => -2 * (let '(h1, h2, r) := gn_rows RA pA x w in fst r * v3dot h1 d + snd r * v3dot h2 d))).
      intros w I. pose proof (term_derive RA pA w x d HA Z (A w I)) as T. destruct (gn_rows RA pA x w) as [[h1 h2] r]. exact T.
    + rewrite B. assert (D0 : v3dot d v3zero = 0) by (destruct d; unfold v3dot; cbn; ring). rewrite D0, Rplus_0_l. clear. induction ws as [|w ws IH]; cbn [map rsum fold_right]; [ring|unfold rsum in *; rewrite IH; ring].
  - rewrite C. assert (D0 : v3dot d (m3v (M3 0 0 0 0 0 0 0 0 0) d) = 0) by (destruct d; unfold v3dot; cbn; ring). rewrite D0, Rplus_0_l. apply rsum_nonneg.
    intros w. destruct (gn_rows RA pA x w) as [[h1 h2] r]. nra.
Qed.
