(** C86 on the initializer's data, C87: the guess is a motion of the body. *)
From Coq Require Import Reals List Arith ZArith Bool Sorted Lia Lra.
From Verif Require Import RBool Outcome GeoModel GeoSpec GeoProofs Lin TypesModel ImuModel DbModel DbSpec DbProofs DbThms InitModel InitProofs PropModel PropSpec CpiModel CpiSpec CpiProofs CpiEx
  StartSpec DynModel DynSpec DynProofs DynThms DynSys DynSolve.
Import ListNotations.
Open Scope R_scope.

Lemma rot_norm Q v : is_rot Q -> v3norm (m3v Q v) = v3norm v.
Proof. intros (_ & H & _). unfold v3norm. f_equal. rewrite <- (dot_trl Q), <- m3v_mul, H. unfold v3dot; simpl; ring. Qed.
Lemma exact_data_thm L o data old P cs l rows g pos ps : (forall id f, In (id, f) l -> feat_ok f) ->
  preint_all o data old 0 P = Ok (Some cs) -> all_rows o P cs 0 l = Ok rows -> is_rot (bo_R (pos old)) -> travels o data old g pos P ->
  Forall2 (fun p e => sees o pos P p (snd e)) ps l -> rank_ok L -> 0 < yo_g o -> v3norm g = yo_g o ->
  let n := length l in let m := length rows in let A := sysA n rows in
  inverse (3 * n + 3) (gram m A) (ya_inv L (3 * n + 3) (gram m A)) -> solve L (yo_g o) m (3 * n + 3) A (sysb rows) = None.
Proof.
  intros Hk Ep Er Q Tr Hs Hr Hg Hn n m A Hi.
  apply (exact_thm L (yo_g o) m (3 * n + 3) A (sysb rows) Hi Hg Hr (truth (pos old) g ps) (m3v (bo_R (pos old)) g)); [|rewrite rot_norm by exact Q; exact Hn].
  assert (Ln : length ps = n) by (unfold n; clear -Hs; induction Hs; cbn [length]; congruence).
  intros i Hi'. pose proof (truth_thm o data old P cs l rows g pos ps Hk Ep Er Q Tr Hs) as T. cbv zeta in T. specialize (T i Hi'). fold n in T. fold A in T. unfold residual. rewrite <- T.
  replace (3 * n + 3 + 3)%nat with (3 * n + 6)%nat by lia. rewrite (mvec_ext (3 * n + 6) A (join (3 * n + 3) (truth (pos old) g ps) (m3v (bo_R (pos old)) g)) (truth (pos old) g ps) i); [ring|].
  intros j Hj. unfold join. destruct (Nat.ltb_spec j (3 * n + 3)); [reflexivity|]. unfold truth. rewrite Ln. destruct (Nat.leb_spec (3 * n + 3) j); [reflexivity|lia].
Qed.

(** ** the guess *)
Lemma preint_span o data ta tb c : preint o data ta tb = Ok (Some c) ->
  exists l, init_select_imu_readings data (ta + yo_dt o) (tb + yo_dt o) = Ok l /\ c = cpi_run (cpi_new true (yo_Qc o) (yo_bg o) (yo_ba o)) (pairs_of l) /\ (2 <= length l)%nat /\
    Rabs (i_t (last l (mkImu 0 v3zero v3zero)) - i_t (hd (mkImu 0 v3zero v3zero) l) - (tb - ta)) <= 1 / 100.
Proof.
  unfold preint. intros E. apply obind_ok in E. destruct E as (l & El & E). destruct (Nat.ltb_spec (length l) 2); [discriminate|]. destruct (Rltb_spec (1 / 100) (Rabs (i_t (last l (mkImu 0 v3zero v3zero)) - i_t (hd (mkImu 0 v3zero v3zero) l) - (tb + yo_dt o - (ta + yo_dt o))))) as [|H1]; [discriminate|].
  injection E as <-. exists l. split; [exact El|]. split; [reflexivity|]. split; [lia|]. replace (tb - ta) with (tb + yo_dt o - (ta + yo_dt o)) by ring. lra.
Qed.
Lemma pairs_duration : forall l, duration (pairs_of l) = i_t (last l (mkImu 0 v3zero v3zero)) - i_t (hd (mkImu 0 v3zero v3zero) l).
Proof.
  induction l as [|a l IH]; [cbn; lra|]. destruct l as [|c l]; [cbn; lra|]. change (pairs_of (a :: c :: l)) with (mkRd (i_t a) (i_t c) (i_w a) (i_a a) (i_w c) (i_a c) :: pairs_of (c :: l)).
  change (duration (?x :: ?y)) with (rd_t1 x - rd_t0 x + duration y). rewrite IH. cbn [rd_t1 rd_t0 hd]. change (last (a :: c :: l) _) with (last (c :: l) (mkImu 0 v3zero v3zero)). ring.
Qed.
Lemma in_front_all o p f b : in_front o p f = Ok b -> b = true -> forall cam ts e, In (cam, ts) (f_ts f) -> alook (yo_ext o) cam = Some e -> 0 <= vz (v3add (m3v (quat_2_Rot (fst e)) p) (snd e)).
Proof.
  unfold in_front. intros E ->. 
  assert (G : forall l b0, ofold (fun b ct => match alook (yo_ext o) (fst ct) with None => UB | Some e => Ok (b && negb (Rltb (vz (v3add (m3v (quat_2_Rot (fst e)) p) (snd e))) 0))%bool end) l b0 = Ok true ->
     b0 = true /\ forall cam (ts : list R) e, In (cam, ts) l -> alook (yo_ext o) cam = Some e -> 0 <= vz (v3add (m3v (quat_2_Rot (fst e)) p) (snd e))).
  { induction l as [|[c ts] l IH]; intros b0 H; cbn [ofold] in H.
    - injection H as ->. split; [reflexivity|intros ? ? ? []].
    - cbn [fst] in H. destruct (alook (yo_ext o) c) as [e|] eqn:Ee; cbn [obind] in H; [|discriminate]. destruct (IH _ H) as [H1 H2]. apply andb_true_iff in H1. destruct H1 as [-> H1]. split; [reflexivity|].
      intros cam ts' e' [X|X] Y; [|apply (H2 cam ts' e' X Y)]. injection X as <- <-. rewrite Ee in Y. injection Y as <-. destruct (Rltb_spec (vz (v3add (m3v (quat_2_Rot (fst e)) p) (snd e))) 0); [discriminate|lra]. }
  apply (G _ _ E).
Qed.
Lemma guess_feats_spec o x : forall l k r, guess_feats o x k l = Ok r -> forall id p, In (id, p) r -> exists i f, nth_error l i = Some (id, f) /\ p = seg x (3 * (k + i)) /\ in_front o p f = Ok true.
Proof.
  induction l as [|[i0 f0] l IH]; intros k r E id p H; cbn [guess_feats] in E; [injection E as <-; destruct H|].
  apply obind_ok in E. destruct E as (b & Eb & E). apply obind_ok in E. destruct E as (r' & Er & E). injection E as <-.
  assert (G : In (id, p) r' -> exists i f, nth_error ((i0, f0) :: l) i = Some (id, f) /\ p = seg x (3 * (k + i)) /\ in_front o p f = Ok true).
  { intros X. destruct (IH (S k) r' Er id p X) as (i & f & A & B & C). exists (S i), f. replace (k + S i)%nat with (S k + i)%nat by lia. auto. }
  destruct b; [|apply G, H]. destruct H as [H|H]; [|apply G, H]. injection H as <- Hp. exists O, f0. rewrite (Nat.add_0_r k). split; [reflexivity|]. split; [symmetry; exact Hp|]. rewrite <- Hp. exact Eb.
Qed.

Lemma guess_thm L o d data tn gu : db_ok d -> 0 < yo_window o -> (0 <= yo_npose o)%Z -> 1 / 1000 < yo_g o -> (forall t, measured d t -> tn - yo_window o < t <= tn) ->
  dyn_core L o d data tn = Ok (Some gu) ->
  exists first x0 ga, is_rot (bo_R x0) /\ bo_p x0 = v3zero /\ Rabs (ga - yo_g o) <= 1 / 1000 /\
    In first (map (fun e : R * q4 * v3 * v3 => fst (fst (fst e))) (gu_poses gu)) /\
    (forall t q p v, In (t, q, p, v) (gu_poses gu) -> first <= t /\
      (t = first -> quat_2_Rot q = bo_R x0 /\ p = bo_p x0 /\ v = bo_v x0) /\
      (t <> first -> exists l, init_select_imu_readings data (first + yo_dt o) (t + yo_dt o) = Ok l /\ (2 <= length l)%nat /\ Rabs (duration (pairs_of l) - (t - first)) <= 1 / 100 /\
         (rates rate_ok true (yo_bg o) (pairs_of l) -> exists y, moves (V3 0 0 ga) (map (piece true (yo_bg o) (yo_ba o)) (pairs_of l)) x0 y /\
            unit_q q /\ quat_2_Rot q = bo_R y /\ p = bo_p y /\ v = bo_v y))) /\
    (8 <= length (gu_feats gu))%nat /\
    (forall id p, In (id, p) (gu_feats gu) -> exists f, alook d id = Some f /\ forall cam e, alook (f_ts f) cam <> None -> alook (yo_ext o) cam = Some e -> 0 <= vz (in_cam e x0 p)).
Proof.
  intros Dk W N Hg Hm. pose proof (scan_facts o d tn Dk W N Hm) as F. cbv zeta in F. unfold dyn_core. cbv zeta. set (s := scan o d tn) in *. destruct F as (F1 & F2 & F3 & F4 & F5 & F6 & F7).
  destruct (Z.ltb_spec (Z.of_nat (length (sc_poses s))) (yo_npose o)) as [L1|L1]; [discriminate|].
  destruct (sc_cnt s <? 8)%nat; [discriminate|]. destruct (sc_old s) as [old|] eqn:Eo; [|discriminate]. intros E. apply obind_ok in E. destruct E as (rd & _ & E).
  apply guard_ok in E; [|discriminate]. destruct E as [_ E]. destruct (Rltb _ (yo_deg o)); [discriminate|]. destruct (sc_meas s <? _)%nat; [discriminate|].
  apply guard_ok in E; [|discriminate]. destruct E as [Lt E]. destruct (Rltb_spec old tn) as [Lt'|]; [|discriminate]. clear Lt. unfold otry in E. apply obind_ok in E. destruct E as (cs & Ep & E). destruct cs as [cs|]; [|discriminate].
  apply obind_ok in E. destruct E as (rows & _ & E). apply guard_ok in E; [|discriminate]. destruct E as [_ E]. destruct (solve _ _ _ _ _ _) as [[x g]|] eqn:Es; [|discriminate].
  apply obind_ok in E. destruct E as (fs & Ef & E). destruct (Nat.ltb_spec (length fs) 8) as [|L8]; [discriminate|]. apply obind_ok in E. destruct E as (Rg & Eg & E). set (v0 := seg x (3 * sc_cnt s)) in E. clearbody v0. injection E as <-. cbn [gu_poses gu_feats].
  apply solve_grav in Es.
  assert (Gz : g <> v3zero). { intros ->. unfold v3norm in Es. replace (v3dot v3zero v3zero) with 0 in Es by (unfold v3dot; simpl; ring). rewrite sqrt_0 in Es. rewrite Rabs_left in Es by lra. lra. }
  destruct (gram_schmidt_rot g Gz) as (Rg' & Eg' & Qg & Up). rewrite Eg in Eg'. injection Eg' as <-.
  pose proof (gram_schmidt_up Rg g Qg (proj2 (norm_nz g) Gz) Up) as Gu. destruct (rot_2_quat_spec Rg Qg) as (Ug & _ & EqR).
  exists old, (mkBody Rg (m3v (m3tr Rg) v0) v3zero), (v3norm g). cbn [bo_R bo_p bo_v]. split; [exact Qg|]. split; [reflexivity|]. split; [exact Es|].
  split; [rewrite poses_times; apply F5; reflexivity|].
  assert (Old : forall t, In t (sc_poses s) -> old <= t).
  { intros t Ht. destruct (Req_dec t tn) as [->|Nt]; [lra|]. destruct (F6 t Ht Nt) as (m & Em & Lm). injection Em as <-. exact Lm. }
  split; [|split].
  - intros t q p v Hin. apply in_map_iff in Hin. destruct Hin as (t' & Eq & Ht). unfold guess_pose in Eq.
    pose proof (find_key cs t') as Fk. rewrite (preint_keys _ _ _ _ _ _ Ep) in Fk. destruct (Fk Ht) as (c & Fc & Ic). clear Fk. unfold cpi_at in Eq. rewrite Fc in Eq.
    destruct (preint_in _ _ _ _ _ _ Ep t' c Ic) as [(-> & ->)|(Nt & c0 & c1 & -> & Epr)]; injection Eq as <- <- <- <-; (split; [apply Old, Ht|]).
    + split; [|intros X; contradiction]. intros _. destruct (rot_2_quat_spec m3id is_rot_id) as (U1 & _ & E1). rewrite quat_multiply_rot, E1, EqR, m3mul_id_l by assumption. split; [reflexivity|].
      split; [apply v3_ext; simpl; ring|]. f_equal. apply v3_ext; simpl; ring.
    + split; [intros X; contradiction|]. intros _. apply preint_span in Epr. destruct Epr as (l & El & Ec & L2 & Sp). exists l. split; [exact El|]. split; [exact L2|]. split; [rewrite pairs_duration; exact Sp|]. intros Rt.
      set (x0 := mkBody Rg (m3v (m3tr Rg) v0) v3zero) in *.
      destruct (moves_exists (V3 0 0 (v3norm g)) (map (piece true (yo_bg o) (yo_ba o)) (pairs_of l)) x0) as (y & My). exists y. split; [exact My|].
      pose proof (run_meaning (V3 0 0 (v3norm g)) x0 (pairs_of l) (cpi_new true (yo_Qc o) (yo_bg o) (yo_ba o)) x0 y Qg) as RM.
      pose proof (means_thm true (yo_Qc o) (yo_bg o) (yo_ba o) (V3 0 0 (v3norm g)) (pairs_of l) x0 y Qg Rt My) as M. cbv zeta in M. rewrite <- Ec in M, RM. destruct M as (M1 & M2 & M3 & M4 & _). rewrite <- M1 in M3, M4.
      assert (Qc : is_rot (cp_R c0)).
      { unfold meaning in RM. refine (proj1 (RM _ Rt My)). split; [apply is_rot_id|]. cbn [cpi_new cp_R cp_be cp_al cp_DT]. split; [rewrite m3mul_id_l; reflexivity|]. split; apply v3_ext; simpl; field. }
      destruct (rot_2_quat_spec (cp_R c0) Qc) as (U1 & _ & E1). split; [apply quat_multiply_unit; assumption|]. rewrite quat_multiply_rot, E1, EqR by assumption. split; [symmetry; exact M2|].
      rewrite M3, M4. unfold x0. cbn [bo_R bo_v bo_p]. rewrite <- Gu. clear. generalize (cp_DT c0) (cp_al c0) (cp_be c0). intros T al be. split; apply v3_ext; simpl; field.
  - rewrite map_length. lia.
  - intros id p Hin. apply in_map_iff in Hin. destruct Hin as ([i p0] & Eq & Hin). cbn [fst snd] in Eq. injection Eq as -> <-.
    destruct (guess_feats_spec o x _ 0 fs Ef id p0 Hin) as (k & f & A & _ & B). exists f. destruct Dk as [Nd Dk]. split; [apply alook_in; [exact Nd|]; apply nth_error_In in A; unfold valid_feats in A; apply filter_In in A; apply A|].
    intros cam e Hc He. destruct (alook (f_ts f) cam) as [ts|] eqn:Et; [|contradiction]. pose proof (in_front_all o p0 f true B eq_refl cam ts e) as Z. unfold in_cam. cbn [bo_R bo_p].
    replace (m3v Rg (v3sub (m3v (m3tr Rg) p0) v3zero)) with p0; [apply Z; [apply alook_some_key; exact Et|exact He]|].
    replace (v3sub (m3v (m3tr Rg) p0) v3zero) with (m3v (m3tr Rg) p0) by (apply v3_ext; simpl; ring). symmetry. apply rot_back, Qg.
Qed.
