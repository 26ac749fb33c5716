(** Concrete cases for C85 and C86. *)
From Coq Require Import Reals List Arith ZArith Bool Sorted Lia Lra.
From Verif Require Import RBool Outcome GeoModel GeoSpec GeoProofs Lin TypesModel ImuModel DbModel DbSpec DbProofs InitModel InitSpec InitProofs InitDongsi2 PropModel PropSpec CpiModel CpiSpec CpiProofs CpiEx
  StartModel StartSpec StartEx DynModel DynSpec DynProofs DynThms DynSys DynSolve DynGuess DynEx.
Import ListNotations.
Open Scope R_scope.

(** ** C85: one point seen three times from an accelerating body *)
Definition exz_a : v3 := V3 0 2 10.
Definition exz_g : v3 := V3 0 0 10.
Definition rdz (t : R) : imu := mkImu t v3zero exz_a.
Definition exz_data : list imu := [rdz 0; rdz 1; rdz 2; rdz 3].
Definition exz_o : yopts := mkYO 3 8 2 0 v3zero v3zero 10 0 [(0%nat, (Q4 0 0 0 1, v3zero))] mzero.
Definition exz_f : feature :=
  let us := [(0, 0); (-1 / 4, -1 / 4); (-1 / 2, -1)] in mkF 7 false [(0%nat, us)] [(0%nat, us)] [(0%nat, [0; 1; 2])] (0%Z, 0, v3zero, v3zero).
Definition exz_l : list (nat * feature) := [(7%nat, exz_f)].
Definition exz_P : list R := [0; 1; 2].
Definition exz_pos (t : R) : body := mkBody m3id (V3 1 (2 * t) 0) (V3 t (t * t) 0).
Definition exz_p : v3 := V3 0 0 4.

Lemma exz_feat id f : In (id, f) exz_l -> feat_ok f.
Proof. intros [E|[]]. injection E as <- <-. split; [cbn; repeat constructor; cbn; tauto|]. intros [|cam]; cbn; auto. Qed.
Lemma exz_sel1 ta tb : ta = 0 -> tb = 1 -> init_select_imu_readings exz_data ta tb = Ok [rdz 0; rdz 1].
Proof. intros -> ->. unfold init_select_imu_readings, exz_data. cbn [sel_loop i_t rdz]. repeat (rb; cbn [sel_loop i_t rdz andb app obind]). unfold compact. cbn [i_t rdz]. rewrite !Rabs_right by lra. rb. reflexivity. Qed.
Lemma exz_sel2 ta tb : ta = 0 -> tb = 2 -> init_select_imu_readings exz_data ta tb = Ok [rdz 0; rdz 1; rdz 2].
Proof. intros -> ->. unfold init_select_imu_readings, exz_data. cbn [sel_loop i_t rdz]. repeat (rb; cbn [sel_loop i_t rdz andb app obind]). unfold compact. cbn [i_t rdz]. rewrite !Rabs_right by lra. rb. reflexivity. Qed.
Lemma exz_sel3 ta tb : ta = 1 -> tb = 2 -> init_select_imu_readings exz_data ta tb = Ok [rdz 1; rdz 2].
Proof. intros -> ->. unfold init_select_imu_readings, exz_data. cbn [sel_loop i_t rdz]. repeat (rb; cbn [sel_loop i_t rdz andb app obind]). unfold compact. cbn [i_t rdz]. rewrite !Rabs_right by lra. rb. reflexivity. Qed.
Lemma exz_pieces : map (piece true v3zero v3zero) (pairs_of [rdz 0; rdz 1]) = map (fun dt => (dt, v3zero, exz_a)) [1] /\
  map (piece true v3zero v3zero) (pairs_of [rdz 0; rdz 1; rdz 2]) = map (fun dt => (dt, v3zero, exz_a)) [1; 1].
Proof. split; cbn [pairs_of map]; unfold piece, unbiased; cbn [rd_t0 rd_t1 rd_w0 rd_w1 rd_a0 rd_a1 rdz i_t i_w i_a]; repeat f_equal; try lra; unfold exz_a; apply v3_ext; simpl; field. Qed.
Lemma exz_rates : rates rate_ok true v3zero (pairs_of [rdz 0; rdz 1; rdz 2]) /\ rates rate_ok true v3zero (pairs_of [rdz 0; rdz 1]).
Proof. split; intros r Hr; right; left; cbn [pairs_of] in Hr; repeat (destruct Hr as [<-|Hr]; [unfold unbiased; cbn [rd_w0 rd_w1 rdz i_w]; apply v3_ext; simpl; field|]); destruct Hr. Qed.
Lemma exz_travels : travels exz_o exz_data 0 exz_g exz_pos exz_P.
Proof.
  intros t l Ht Hn E. cbn [exz_o yo_dt yo_bg yo_ba] in *. destruct Ht as [<-|[<-|[<-|[]]]]; [contradiction| |].
  - rewrite exz_sel1 in E by lra. injection E as <-. split; [|apply exz_rates]. rewrite (proj1 exz_pieces).
    pose proof (straight_moves exz_a exz_g [1] (V3 1 0 0) v3zero) as M. cbv zeta in M. replace (exz_pos 0) with (mkBody m3id (V3 1 0 0) v3zero) by (unfold exz_pos; f_equal; apply v3_ext; simpl; ring).
    eapply eq_ind; [exact M|]. unfold exz_pos. f_equal; apply v3_ext; simpl; field.
  - rewrite exz_sel2 in E by lra. injection E as <-. split; [|apply exz_rates]. rewrite (proj2 exz_pieces).
    pose proof (straight_moves exz_a exz_g [1; 1] (V3 1 0 0) v3zero) as M. cbv zeta in M. replace (exz_pos 0) with (mkBody m3id (V3 1 0 0) v3zero) by (unfold exz_pos; f_equal; apply v3_ext; simpl; ring).
    eapply eq_ind; [exact M|]. unfold exz_pos. f_equal; apply v3_ext; simpl; field.
Qed.
Lemma exz_sees : Forall2 (fun p e => sees exz_o exz_pos exz_P p (snd e)) [exz_p] exz_l.
Proof.
  constructor; [|constructor]. cbn [snd]. intros cam e ob He Ho Hp. destruct cam as [|cam]; [|discriminate]. cbn in He. injection He as <-. cbn in Ho.
  destruct Ho as [<-|[<-|[<-|[]]]]; cbv zeta; unfold otime; cbn [fst snd]; simpl; repeat split; try lra; field; lra.
Qed.
Lemma exz_system : exists cs rows c1 c2, preint_all exz_o exz_data 0 0 exz_P = Ok (Some cs) /\ all_rows exz_o exz_P cs 0 exz_l = Ok rows /\ length rows = 6%nat /\
  cs = [(0, None); (1, Some (c1, c1)); (2, Some c2)] /\ cp_DT c1 = 1 /\ cp_R c1 = m3id /\ cp_DT (fst c2) = 2 /\ cp_R (fst c2) = m3id /\
  rows = rows_of cs 0 (Q4 0 0 0 1, v3zero) 0 (0, 0) ++ rows_of cs 0 (Q4 0 0 0 1, v3zero) 1 (-1 / 4, -1 / 4) ++ rows_of cs 0 (Q4 0 0 0 1, v3zero) 2 (-1 / 2, -1).
Proof.
  set (mk l := cpi_run (cpi_new true mzero v3zero v3zero) (pairs_of l)).
  assert (P1 : preint exz_o exz_data 0 1 = Ok (Some (mk [rdz 0; rdz 1]))).
  { unfold preint. cbn [exz_o yo_dt yo_Qc yo_bg yo_ba]. rewrite exz_sel1 by lra. cbn [obind length Nat.ltb Nat.leb]. cbv zeta. cbn [last hd rdz i_t]. rewrite Rabs_right by lra. rb. reflexivity. }
  assert (P2 : preint exz_o exz_data 0 2 = Ok (Some (mk [rdz 0; rdz 1; rdz 2]))).
  { unfold preint. cbn [exz_o yo_dt yo_Qc yo_bg yo_ba]. rewrite exz_sel2 by lra. cbn [obind length Nat.ltb Nat.leb]. cbv zeta. cbn [last hd rdz i_t]. rewrite Rabs_right by lra. rb. reflexivity. }
  assert (P3 : preint exz_o exz_data 1 2 = Ok (Some (mk [rdz 1; rdz 2]))).
  { unfold preint. cbn [exz_o yo_dt yo_Qc yo_bg yo_ba]. rewrite exz_sel3 by lra. cbn [obind length Nat.ltb Nat.leb]. cbv zeta. cbn [last hd rdz i_t]. rewrite Rabs_right by lra. rb. reflexivity. }
  assert (C : cp_DT (mk [rdz 0; rdz 1]) = 1 /\ cp_R (mk [rdz 0; rdz 1]) = m3id /\ cp_DT (mk [rdz 0; rdz 1; rdz 2]) = 2 /\ cp_R (mk [rdz 0; rdz 1; rdz 2]) = m3id).
  { pose proof (straight_moves exz_a exz_g [1] (V3 1 0 0) v3zero) as M1. cbv zeta in M1. rewrite <- (proj1 exz_pieces) in M1. pose proof (straight_moves exz_a exz_g [1; 1] (V3 1 0 0) v3zero) as M2. cbv zeta in M2. rewrite <- (proj2 exz_pieces) in M2.
    pose proof (means_thm true mzero v3zero v3zero exz_g _ (mkBody m3id (V3 1 0 0) v3zero) _ is_rot_id (proj2 exz_rates) M1) as N1. pose proof (means_thm true mzero v3zero v3zero exz_g _ (mkBody m3id (V3 1 0 0) v3zero) _ is_rot_id (proj1 exz_rates) M2) as N2.
    cbv zeta in N1, N2. rewrite pairs_duration in N1, N2. destruct N1 as (A1 & A2 & _). destruct N2 as (B1 & B2 & _). cbn [bo_R last hd rdz i_t] in *. fold (mk [rdz 0; rdz 1]) in A1, A2. fold (mk [rdz 0; rdz 1; rdz 2]) in B1, B2.
    split; [lra|]. split; [rewrite A2; apply m3_ext; simpl; ring|]. split; [lra|]. rewrite B2; apply m3_ext; simpl; ring. }
  destruct C as (C1 & C2 & C3 & C4).
  exists [(0, None); (1, Some (mk [rdz 0; rdz 1], mk [rdz 0; rdz 1])); (2, Some (mk [rdz 0; rdz 1; rdz 2], mk [rdz 1; rdz 2]))].
  eexists. exists (mk [rdz 0; rdz 1]), (mk [rdz 0; rdz 1; rdz 2], mk [rdz 1; rdz 2]). split.
  - unfold exz_P. cbn [preint_all]. rb. rewrite P1, P2, P3. reflexivity.
  - split; [|split; [|split; [reflexivity|split; [exact C1|split; [exact C2|split; [exact C3|split; [exact C4|reflexivity]]]]]]].
    + generalize (mk [rdz 0; rdz 1]) (mk [rdz 0; rdz 1; rdz 2]) (mk [rdz 1; rdz 2]). intros c1 c2 c3. set (cs := [(0, None); (1, Some (c1, c1)); (2, Some (c2, c3))] : cpis).
      unfold exz_l, exz_f, exz_P. cbn [all_rows f_ts feat_rows exz_o yo_ext alook Nat.eqb f_uvn cam_rows]. unfold tfind. cbn [existsb]. rb. cbn [orb obind]. unfold aget. cbn [alook Nat.eqb cam_rows obind].
      rewrite !app_nil_r. reflexivity.
    + rewrite !app_length, !rows_of_len. reflexivity.
Qed.
Definition exz_inv : list (list R) :=
  [[1; 0; (-6); 0; (-1); (-2)];
   [0; 1; 2; (1 / 2); (3 / 2); 0];
   [(-6); 2; 240; 24; 48; 72];
   [0; (1 / 2); 24; (7 / 2); 6; 6];
   [(-1); (3 / 2); 48; 6; (25 / 2); 12];
   [(-2); 0; 72; 6; 12; 24]].
Definition tbl (t : list (list R)) : mat := fun i j => nth j (nth i t []) 0.
Definition exz_A1 : mat := tbl
  [[1; 0; 0; 0; 0; 0]; [0; 1; 0; 0; 0; 0]; [1; 0; 1 / 4; -1; 0; - (1 / 4)]; [0; 1; 1 / 4; 0; -1; - (1 / 4)]; [1; 0; 1 / 2; -2; 0; -1]; [0; 1; 1; 0; -2; -2]].
Lemma lt6 i : (i < 6)%nat -> (i = 0 \/ i = 1 \/ i = 2 \/ i = 3 \/ i = 4 \/ i = 5)%nat. Proof. lia. Qed.
Lemma exz_inverse : inverse 6 (gram 6 exz_A1) (tbl exz_inv).
Proof.
  split; intros i j Hi Hj; apply lt6 in Hi; apply lt6 in Hj; destruct Hi as [->|[->|[->|[->|[->| ->]]]]]; destruct Hj as [->|[->|[->|[->|[->| ->]]]]];
    unfold gram, mmul, mtr, mid, exz_A1, exz_inv, tbl; cbn [sumn nth Nat.eqb]; lra.
Qed.
Lemma gram_ext m n A B : meq m n A B -> meq n n (gram m A) (gram m B).
Proof. intros H i j Hi Hj. apply sumn_ext. intros k Hk. unfold mtr. rewrite !H by assumption. reflexivity. Qed.
Lemma inverse_ext n A B N : meq n n A B -> inverse n A N -> inverse n B N.
Proof.
  intros H [H1 H2]. split; intros i j Hi Hj; [rewrite <- (H1 i j Hi Hj)|rewrite <- (H2 i j Hi Hj)]; apply sumn_ext; intros k Hk; rewrite H by assumption; reflexivity.
Qed.
(** an honest oracle for companion matrices *)
Definition rank6 (C : mat) : nat := if Reqb (C 0%nat 5%nat) 0 then 5%nat else 6%nat.
Lemma rank6_ok inv i3 ev : rank_ok (mkAlg inv i3 rank6 ev).
Proof.
  intros c u H Hu. cbn [ya_rank] in H. unfold rank6 in H. destruct (Reqb_spec (companion c 0%nat 5%nat) 0) as [|N]; [discriminate|].
  pose proof (Hu 0%nat ltac:(lia)) as U0. pose proof (Hu 1%nat ltac:(lia)) as U1. pose proof (Hu 2%nat ltac:(lia)) as U2. pose proof (Hu 3%nat ltac:(lia)) as U3. pose proof (Hu 4%nat ltac:(lia)) as U4. pose proof (Hu 5%nat ltac:(lia)) as U5.
  unfold companion in *. cbn [sumn Nat.eqb Nat.sub] in *. intros i Hi. apply lt6 in Hi.
  assert (u 1%nat = 0) by lra. assert (u 2%nat = 0) by lra. assert (u 3%nat = 0) by lra. assert (u 4%nat = 0) by lra. assert (u 5%nat = 0) by lra.
  assert (Z : u 0%nat * - nth 6 c 0 = 0) by nra. apply Rmult_integral in Z. destruct Z as [Z|Z]; [|contradiction]. destruct Hi as [->|[->|[->|[->|[->| ->]]]]]; assumption.
Qed.
Definition exz_L : alg := mkAlg (fun _ _ => tbl exz_inv) (fun M => M) rank6 (fun _ => None).
Lemma exz_all : exists cs rows, let n := length exz_l in let m := length rows in let A := sysA n rows in
  (forall id f, In (id, f) exz_l -> feat_ok f) /\ preint_all exz_o exz_data 0 0 exz_P = Ok (Some cs) /\ all_rows exz_o exz_P cs 0 exz_l = Ok rows /\ m = 6%nat /\
  is_rot (bo_R (exz_pos 0)) /\ travels exz_o exz_data 0 exz_g exz_pos exz_P /\ Forall2 (fun p e => sees exz_o exz_pos exz_P p (snd e)) [exz_p] exz_l /\
  rank_ok exz_L /\ v3norm exz_g = yo_g exz_o /\ inverse (3 * n + 3) (gram m A) (ya_inv exz_L (3 * n + 3) (gram m A)).
Proof.
  destruct exz_system as (cs & rows & c1 & c2 & H1 & H2 & H3 & H4 & D1 & R1 & D2 & R2 & H5). exists cs, rows. cbv zeta. split; [exact exz_feat|]. split; [exact H1|]. split; [exact H2|]. split; [exact H3|].
  split; [apply is_rot_id|]. split; [exact exz_travels|]. split; [exact exz_sees|]. split; [apply rank6_ok|]. split.
  - unfold v3norm, v3dot, exz_g. cbn [vx vy vz exz_o yo_g]. replace (0 * 0 + 0 * 0 + 10 * 10) with (10 * 10) by ring. apply sqrt_square. lra.
  - rewrite H3. cbn [length exz_l exz_L ya_inv Nat.mul Nat.add]. apply inverse_ext with (gram 6 exz_A1); [|exact exz_inverse]. apply gram_ext. 
    assert (A0 : cpi_at cs 0 = (0, m3id, v3zero, v3zero)) by (unfold cpi_at; rewrite H4; cbn [find fst]; rb; reflexivity).
    assert (A1 : cpi_at cs 1 = (1, m3id, cp_al c1, cp_be c1)) by (unfold cpi_at; rewrite H4; cbn [find fst]; rb; rewrite D1, R1; reflexivity).
    assert (A2 : cpi_at cs 2 = (2, m3id, cp_al (fst c2), cp_be (fst c2))) by (unfold cpi_at; rewrite H4; cbn [find fst]; rb; destruct c2 as [c2 c3]; cbn [fst] in *; rewrite D2, R2; reflexivity).
    unfold rows_of in H5. rewrite A0, A1, A2 in H5. cbn [app] in H5. rewrite H5. intros i j Hi Hj. apply lt6 in Hi; apply lt6 in Hj; destruct Hi as [->|[->|[->|[->|[->| ->]]]]]; destruct Hj as [->|[->|[->|[->|[->| ->]]]]];
    unfold sysA, row_entry, exz_A1, tbl; cbn [nth_error nth Nat.leb Nat.mul Nat.add Nat.sub Nat.div Nat.divmod Nat.eqb Nat.modulo fst snd yr_k yr_y yr_DT v3nth]; simpl; lra.
Qed.

(** ** C86: a problem with a solution *)
Definition inv1 (M : mat) : mat := fun i j => if (Nat.eqb i 0 && Nat.eqb j 0)%bool then / M 0%nat 0%nat else 0.
Definition adjinv (M : m3) : m3 := m3scal (/ m3det M) (adj3 M).
Definition exw_c : list R := [1; -6; 1356 / 100; - (1424 / 100); 636 / 100; - (24 / 100); - (44 / 100)].
Definition exw_eigs (C : mat) : option (list (R * R)) :=
  if forallb (fun i => Reqb (C i 5%nat) (companion exw_c i 5%nat)) (seq 0 6) then Some [(- (1 / 5), 0); (11 / 5, 0); (1, 0)] else None.
Definition exw_L : alg := mkAlg (fun _ => inv1) adjinv rank6 exw_eigs.
Definition exw_b : vec := fun i => match i with 0%nat => 3 | 3%nat => 12 | _ => 0 end.
Lemma pd_det M : m3tr M = M -> pd3 M -> m3det M <> 0.
Proof.
  intros S P. assert (S' : m10 M = m01 M /\ m20 M = m02 M /\ m21 M = m12 M) by (destruct M; unfold m3tr in S; simpl in *; injection S as ? ? ? ? ? ?; auto). destruct S' as (S1 & S2 & S3).
  assert (H1 : 0 < m00 M). { assert (N : V3 1 0 0 <> v3zero) by (intros X; injection X as X; lra). pose proof (P _ N) as H. unfold v3dot in H; simpl in H. lra. }
  assert (H2 : 0 < m00 M * m11 M - m01 M * m01 M).
  { assert (N : V3 (- m01 M) (m00 M) 0 <> v3zero) by (intros X; injection X as X Y; lra). pose proof (P _ N) as H. unfold v3dot in H; simpl in H. rewrite S1 in H. apply Rmult_lt_reg_l with (m00 M); [exact H1|]. nra. }
  set (u := V3 (m01 M * m12 M - m02 M * m11 M) (m02 M * m10 M - m00 M * m12 M) (m00 M * m11 M - m01 M * m10 M)).
  assert (N : u <> v3zero) by (intros X; unfold u in X; injection X as X Y Z; rewrite S1 in Z; lra). pose proof (P u N) as H.
  assert (E : v3dot u (m3v M u) = m3det M * (m00 M * m11 M - m01 M * m10 M)) by (unfold u, v3dot, m3det; simpl; ring). intros Z. rewrite E, Z in H. lra.
Qed.
Lemma exw_inv3 : inv3_ok exw_L.
Proof. intros M S P. cbn [exw_L ya_inv3]. pose proof (pd_det M S P) as N. unfold adjinv. apply m3_ext; simpl; unfold m3det in *; field; exact N. Qed.
Lemma exw_roots l : In (l, 0) [(- (1 / 5), 0); (11 / 5, 0); (1, 0)] -> horner exw_c l = 0.
Proof. intros [E|[E|[E|[]]]]; injection E as <-; unfold horner, exw_c; cbn [fold_left]; lra. Qed.
Lemma exw_eigok : eigs_ok exw_L.
Proof.
  intros c ev l H Hl. cbn [exw_L ya_eigs] in H. unfold exw_eigs in H. destruct (forallb _ _) eqn:F; [|discriminate]. injection H as <-. apply exw_roots in Hl.
  unfold exw_c in Hl. apply (companion_root 1 _ _ _ _ _ _ l eq_refl) in Hl. fold exw_c in Hl. destruct Hl as (u & U1 & U2). exists u. split; [exact U1|]. intros j Hj. rewrite <- (U2 j Hj). apply sumn_ext. intros i Hi. f_equal.
  rewrite forallb_forall in F. destruct (Nat.eq_dec j 5) as [->|N].
  - specialize (F i). rewrite in_seq in F. specialize (F ltac:(lia)). destruct (Reqb_spec (companion c i 5%nat) (companion exw_c i 5%nat)); [assumption|discriminate].
  - unfold companion. destruct (Nat.eqb_spec j 5); [contradiction|reflexivity].
Qed.
Lemma exw_inv : inverse 1 (gram 4 mid) (ya_inv exw_L 1 (gram 4 mid)).
Proof. split; intros i j Hi Hj; assert (i = 0 /\ j = 0)%nat as [-> ->] by lia; unfold exw_L, ya_inv, inv1, gram, mmul, mtr, mid; cbn [sumn Nat.eqb andb]; field. Qed.
Lemma exw_reduced : reduced 4 1 mid exw_b m3id (V3 0 0 12).
Proof. intros f u N. unfold grad_g, dot, residual, mvec, mid, join, exw_b. cbn [sumn Nat.eqb Nat.add Nat.ltb Nat.leb Nat.sub v3nth]. apply v3_ext; simpl; ring. Qed.
Lemma exw_coeff : compute_dongsi_coeff m3id (V3 0 0 12) 10 = exw_c.
Proof. unfold compute_dongsi_coeff, exw_c, m3id. cbn [m00 m01 m02 m10 m11 m12 m20 m21 m22 vx vy vz]. do 7 (apply f_equal2; [lra|]). reflexivity. Qed.
Lemma exw_pd : pd3 (shifted m3id (- (1 / 5))).
Proof. intros u N. assert (0 < v3dot u u). { destruct (Req_dec (v3dot u u) 0) as [Z|Z]; [|unfold v3dot in *; nra]. exfalso. apply N. unfold v3dot in Z. apply v3_ext; simpl; nra. } unfold shifted, v3dot in *; simpl in *. nra. Qed.
Lemma exw_solved : ya_rank exw_L (companion (compute_dongsi_coeff m3id (V3 0 0 12) 10)) = 6%nat /\
  ya_eigs exw_L (companion (compute_dongsi_coeff m3id (V3 0 0 12) 10)) = Some [(- (1 / 5), 0); (11 / 5, 0); (1, 0)] /\
  exists x gr, solve exw_L 10 4 1 mid exw_b = Some (x, gr) /\ v3norm gr = 10.
Proof.
  assert (R : ya_rank exw_L (companion (compute_dongsi_coeff m3id (V3 0 0 12) 10)) = 6%nat) by (rewrite exw_coeff; unfold exw_L, ya_rank, rank6, companion, exw_c; cbn [Nat.eqb Nat.sub nth]; rb; reflexivity).
  assert (E : ya_eigs exw_L (companion (compute_dongsi_coeff m3id (V3 0 0 12) 10)) = Some [(- (1 / 5), 0); (11 / 5, 0); (1, 0)]).
  { rewrite exw_coeff. unfold exw_L, ya_eigs, exw_eigs. cbn [seq forallb]. rewrite !eq_t by reflexivity. reflexivity. }
  split; [exact R|]. split; [exact E|]. eapply (found_thm exw_L 10 4 1 mid exw_b exw_inv ltac:(lra) exw_inv3 exw_eigok m3id (V3 0 0 12) _ (- (1 / 5)) exw_reduced R E); [left; reflexivity|exact exw_pd].
Qed.
