(** Concrete cases for C84-C87. *)
From Coq Require Import Reals List Arith ZArith Bool Sorted Lia Lra.
From Coquelicot Require Import Coquelicot.
From Verif Require Import RBool Outcome GeoModel GeoSpec GeoProofs JacSo3 Calc3 Lin TypesModel ImuModel DbModel DbSpec DbProofs DbThms InitModel InitProofs PropModel PropSpec CpiModel CpiSpec CpiProofs CpiEx
  StartModel StartSpec StartEx DynModel DynSpec DynProofs DynThms DynSys DynSolve DynGuess.
Import ListNotations.
Open Scope R_scope.

(** ** a body that does not turn *)
Lemma still_kin a g Q v0 p0 : let n := v3sub (m3v (m3tr Q) a) g in
  kinematics v3zero a g (fun _ => Q) (fun t => v3add v0 (v3scal t n)) (fun t => v3add p0 (v3add (v3scal t v0) (v3scal (t * t / 2) n))).
Proof.
  intros n t. split; [|split].
  - eapply m3_derive_eq; [apply m3d_const|]. apply m3_ext; simpl; ring.
  - eapply v3_derive_eq; [apply v3d_add; [apply v3d_const|apply (v3d_scalf (fun t => t)); [apply is_derive_id|apply v3d_const]]|]. unfold n. apply v3_ext; simpl; unfold one; simpl; ring.
  - eapply v3_derive_eq; [apply v3d_add; [apply v3d_const|apply v3d_add; [apply (v3d_scalf (fun t => t)); [apply is_derive_id|apply v3d_const]|apply (v3d_scalf (fun t => t * t / 2) _ _ t); [auto_derive; auto; field|apply v3d_const]]]|].
    unfold n. apply v3_ext; simpl; unfold one; simpl; ring.
Qed.
Definition rsum' (l : list R) : R := fold_right Rplus 0 l.
Lemma straight_moves a g ds : forall v p, let n := v3sub a g in let T := rsum' ds in
  moves g (map (fun dt => (dt, v3zero, a)) ds) (mkBody m3id v p) (mkBody m3id (v3add v (v3scal T n)) (v3add p (v3add (v3scal T v) (v3scal (T * T / 2) n)))).
Proof.
  induction ds as [|dt ds IH]; intros v p n T.
  - cbn [map]. unfold T; cbn [rsum' fold_right]. replace (mkBody m3id (v3add v (v3scal 0 n)) _) with (mkBody m3id v p); [constructor|]. f_equal; apply v3_ext; simpl; field.
  - cbn [map]. pose proof (still_kin a g m3id v p) as K. cbv zeta in K. replace (v3sub (m3v (m3tr m3id) a) g) with n in K by (unfold n; apply v3_ext; simpl; ring).
    replace (mkBody m3id v p) with (mkBody ((fun _ : R => m3id) 0) ((fun t => v3add v (v3scal t n)) 0) ((fun t => v3add p (v3add (v3scal t v) (v3scal (t * t / 2) n))) 0)) by (f_equal; apply v3_ext; simpl; field).
    apply moves_cons with (1 := K). unfold T. cbn [rsum' fold_right]. fold (rsum' ds). specialize (IH (v3add v (v3scal dt n)) (v3add p (v3add (v3scal dt v) (v3scal (dt * dt / 2) n)))). cbv zeta in IH. fold n in IH.
    eapply eq_ind; [exact IH|]. f_equal; apply v3_ext; simpl; field.
Qed.

(** ** C84, C87: eight features seen at 3 and 4 *)
Definition exy_f (i : nat) : feature :=
  let us := [(0, 0); (0, 0); (0, 0)] in mkF i false [(0%nat, us)] [(0%nat, us)] [(0%nat, [1; 3; 4])] (0%Z, 0, v3zero, v3zero).
Definition exy_g (i : nat) : feature :=
  let us := [(0, 0); (0, 0)] in mkF i false [(0%nat, us)] [(0%nat, us)] [(0%nat, [3; 4])] (0%Z, 0, v3zero, v3zero).
Definition exy_db : db := map (fun i => (i, exy_f i)) (seq 0 8).
Definition exy_cut : db := map (fun i => (i, exy_g i)) (seq 0 8).
Definition exy_o : yopts := mkYO 2 8 2 0 v3zero v3zero (981 / 100) 0 [(0%nat, (Q4 0 0 0 1, v3zero))] mzero.
Definition exy_a : v3 := V3 1 0 (981 / 100).
Definition rdg (t : R) : imu := mkImu t v3zero exy_a.
Definition exy_data : list imu := [rdg 1; rdg 2; rdg 3; rdg (7 / 2); rdg 4; rdg 5].

Lemma exy_clean i t : t = 4 - 2 -> clean_older_measurements t (exy_f i) = Ok (exy_g i).
Proof. intros ->. unfold clean_older_measurements, clean_feature, exy_f, exy_g. cbn. unfold clean_cam. cbn. rb. cbn. rb. cbn. rb. reflexivity. Qed.
Lemma exy_cleanup t : t = 4 - 2 -> cleanup_measurements t exy_db = Ok exy_cut.
Proof.
  intros Ht. unfold cleanup_measurements, exy_db, exy_cut. generalize (seq 0 8). induction l as [|i l IH]; [reflexivity|]. cbn [map clean_loop].
  rewrite exy_clean by auto. cbn [obind]. rewrite IH. reflexivity.
Qed.
Lemma exy_newest : newest_cam exy_db = 4.
Proof.
  assert (H : forall i m, m = -1 \/ m = 4 -> fold_left (fun m ct => fold_left std_max (snd ct) m) (f_ts (exy_f i)) m = 4).
  { intros i m [-> | ->]; cbn [exy_f f_ts fold_left snd]; unfold std_max; rb; reflexivity. }
  unfold newest_cam, exy_db. cbn [seq map snd]. cbn [fold_left]. rewrite (H 0%nat (-1)) by auto. rewrite (H 1%nat 4), (H 2%nat 4), (H 3%nat 4), (H 4%nat 4), (H 5%nat 4), (H 6%nat 4), (H 7%nat 4) by auto. reflexivity.
Qed.
Lemma trunc2 : trunc 2 = 2%Z.
Proof. unfold trunc. rb. unfold Int_part. rewrite <- (up_tech 2 2); [reflexivity|lra|]. rewrite plus_IZR. lra. Qed.
Lemma exy_usable : usable exy_o 2 = true.
Proof. unfold usable. cbn [exy_o yo_window]. rewrite trunc2. reflexivity. Qed.
Lemma exy_dt : pose_dt exy_o = 2 / 3. Proof. reflexivity. Qed.
Lemma exy_pick P i : P = [4] \/ P = [3; 4] -> pick (2 / 3) P (exy_g i) = [3; 4].
Proof.
  assert (A1 : Rabs (3 - 4) = 1) by (rewrite Rabs_left by lra; lra). assert (A2 : Rabs (4 - 4) = 0) by (rewrite Rabs_right by lra; lra). assert (A3 : Rabs (3 - 3) = 0) by (rewrite Rabs_right by lra; lra).
  assert (A4 : Rabs (4 - 3) = 1) by (rewrite Rabs_right by lra; lra).
  intros [-> | ->]; unfold pick, exy_g; cbn [f_ts fold_left snd]; unfold pick_cam; cbn [fold_left]; unfold taken at 2; cbn [near app fold_left]; unfold near; cbn [app fold_left]; rewrite ?A1, ?A2, ?A3, ?A4; rb; cbn [orb app];
    unfold taken, near; cbn [app fold_left]; rewrite ?A1, ?A2, ?A3, ?A4; rb; cbn [orb app]; reflexivity.
Qed.
Lemma exy_step s i : sc_poses s = [4] \/ sc_poses s = [3; 4] -> sc_old s = None \/ sc_old s = Some 3 ->
  scan_step exy_o (2 / 3) s (i, exy_g i) = mkSc (aset (sc_num s) i 2%nat) (sc_meas s + 4) (Some 3) [3; 4] (S (sc_cnt s)).
Proof.
  intros HP HO. unfold scan_step. cbv zeta. cbn [fst snd]. rewrite exy_pick by exact HP. cbn [length]. rewrite exy_usable. cbn [fold_left]. f_equal.
  - destruct HO as [-> | ->]; rb; reflexivity.
  - destruct HP as [-> | ->]; cbn [tins]; rb; cbn [tins]; rb; cbn [tins]; rb; reflexivity.
Qed.
Lemma exy_fold l : forall s, sc_poses s = [3; 4] -> sc_old s = Some 3 -> let r := fold_left (scan_step exy_o (2 / 3)) (map (fun i => (i, exy_g i)) l) s in
  sc_poses r = [3; 4] /\ sc_cnt r = (length l + sc_cnt s)%nat /\ sc_meas r = (4 * length l + sc_meas s)%nat /\ sc_old r = Some 3.
Proof.
  induction l as [|i l IH]; intros s HP HO; [auto|]. cbn [map fold_left]. rewrite exy_step by auto. specialize (IH (mkSc (aset (sc_num s) i 2%nat) (sc_meas s + 4) (Some 3) [3; 4] (S (sc_cnt s))) eq_refl eq_refl).
  cbv zeta in *. destruct IH as (A & B & C & D). cbn [sc_cnt sc_meas] in *. rewrite B, C. cbn [length]. split; [exact A|]. split; [lia|]. split; [lia|exact D].
Qed.
Lemma exy_fold1 i l : let r := fold_left (scan_step exy_o (2 / 3)) (map (fun i => (i, exy_g i)) (i :: l)) (mkSc [] 0 None [4] 0) in
  sc_poses r = [3; 4] /\ sc_cnt r = (length l + 1)%nat /\ sc_meas r = (4 * length l + 4)%nat /\ sc_old r = Some 3.
Proof.
  cbn [map fold_left]. rewrite exy_step by (cbn [sc_poses sc_old]; auto). cbn [sc_num sc_meas sc_cnt]. exact (exy_fold l (mkSc (aset [] i 2%nat) (0 + 4) (Some 3) [3; 4] 1) eq_refl eq_refl).
Qed.
Lemma exy_cut_eq : exy_cut = map (fun i => (i, exy_g i)) (0%nat :: seq 1 7). Proof. reflexivity. Qed.
Lemma exy_scan : let s := scan exy_o exy_cut 4 in sc_poses s = [3; 4] /\ sc_cnt s = 8%nat /\ sc_meas s = 32%nat /\ sc_old s = Some 3.
Proof.
  cbv zeta. unfold scan. rewrite exy_dt, exy_cut_eq. pose proof (exy_fold1 0 (seq 1 7)) as H. cbv zeta in H. rewrite seq_length in H. exact H.
Qed.
Lemma exy_feat i : feat_ok (exy_g i) /\ feat_ok (exy_f i).
Proof. split; (split; [cbn; repeat constructor; cbn; tauto|]; intros [|cam]; cbn; auto). Qed.
Lemma exy_dbok : db_ok exy_cut /\ db_ok exy_db.
Proof.
  assert (K : forall h (l : list nat), map fst (map (fun i : nat => (i, h i : feature)) l) = l) by (intros h l; rewrite map_map; apply map_id).
  split; (split; [unfold exy_cut, exy_db; rewrite K; apply seq_NoDup|]); intros id f H; apply in_map_iff in H; destruct H as (i & E & _); injection E as <- <-; (split; [reflexivity|apply exy_feat]).
Qed.
Lemma filter_short {X} (p : X -> bool) l : (length (filter p l) <= length l)%nat.
Proof. induction l as [|x l IH]; [auto|]. cbn [filter]. destruct (p x); cbn [length]; lia. Qed.
Lemma filter_full {X} (p : X -> bool) l : length (filter p l) = length l -> filter p l = l.
Proof.
  induction l as [|x l IH]; intros H; [reflexivity|]. cbn [filter length] in *. destruct (p x); cbn [length] in H; [f_equal; apply IH; lia|].
  exfalso. pose proof (filter_short p l). lia.
Qed.
Lemma exy_measured t : measured exy_cut t -> 4 - 2 < t <= 4.
Proof.
  intros (id & f & E & cam & ob & I & T). apply alook_some_key in E. unfold exy_cut in E. apply in_map_iff in E. destruct E as (i & E & _). injection E as <- <-.
  destruct cam as [|cam]; cbn in I; [|destruct I]. destruct I as [<-|[<-|[]]]; cbn in T; subst t; lra.
Qed.
Lemma exy_win : 0 < yo_window exy_o. Proof. cbn. lra. Qed.
Lemma exy_np : (0 <= yo_npose exy_o)%Z. Proof. cbn. lia. Qed.
Lemma exy_meas t : measured exy_cut t -> 4 - yo_window exy_o < t <= 4. Proof. exact (exy_measured t). Qed.
Lemma exy_len : length exy_cut = 8%nat. Proof. reflexivity. Qed.
Lemma exy_valid : valid_feats exy_o (scan exy_o exy_cut 4) exy_cut = exy_cut.
Proof.
  pose proof (scan_facts exy_o exy_cut 4 (proj1 exy_dbok) exy_win exy_np exy_meas) as F. destruct exy_scan as (_ & S & _). generalize dependent (scan exy_o exy_cut 4). intros s F S.
  destruct F as (_ & _ & _ & _ & _ & _ & F). apply filter_full. rewrite exy_len, <- S, F. reflexivity.
Qed.
Lemma exy_cutdata : drop_before (4 - 2 + 0) exy_data = [rdg 2; rdg 3; rdg (7 / 2); rdg 4; rdg 5].
Proof. unfold exy_data. cbn [drop_before rdg i_t]. rb. reflexivity. Qed.
Lemma exy_select ta tb : ta = 3 -> tb = 4 -> init_select_imu_readings [rdg 2; rdg 3; rdg (7 / 2); rdg 4; rdg 5] ta tb = Ok [rdg 3; rdg (7 / 2); rdg 4].
Proof.
  intros -> ->. unfold init_select_imu_readings. cbn [sel_loop i_t rdg]. repeat (rb; cbn [sel_loop i_t rdg andb app obind]).
  unfold compact. cbn [i_t rdg]. rewrite !Rabs_right by lra. rb. reflexivity.
Qed.
Lemma exy_c (ds := [7 / 2 - 3; 4 - 7 / 2]) : let c := cpi_run (cpi_new true mzero v3zero v3zero) (pairs_of [rdg 3; rdg (7 / 2); rdg 4]) in cp_DT c = 1 /\ cp_R c = m3id /\ vx (cp_al c) = 1 / 2 /\ vy (cp_al c) = 0.
Proof.
  cbv zeta. set (l := pairs_of _).
  assert (Pc : map (piece true v3zero v3zero) l = map (fun dt => (dt, v3zero, exy_a)) ds) by (unfold l, ds; cbn [pairs_of map]; unfold piece, unbiased; cbn [rd_t0 rd_t1 rd_w0 rd_w1 rd_a0 rd_a1 rdg i_t i_w i_a]; repeat f_equal; unfold exy_a; apply v3_ext; simpl; field).
  assert (Rt : rates rate_ok true v3zero l) by (intros r Hr; right; left; unfold l in Hr; cbn [pairs_of] in Hr; destruct Hr as [<-|[<-|[]]]; unfold unbiased; cbn [rd_w0 rd_w1 rdg i_w]; apply v3_ext; simpl; field).
  pose proof (straight_moves exy_a v3zero ds v3zero v3zero) as Mv. cbv zeta in Mv. rewrite <- Pc in Mv. assert (Es : rsum' ds = 1) by (unfold ds; cbn [rsum' fold_right]; lra). rewrite Es in Mv.
  pose proof (means_thm true mzero v3zero v3zero v3zero l (mkBody m3id v3zero v3zero) _ is_rot_id Rt Mv) as M. cbv zeta in M. destruct M as (M1 & M2 & _ & M4 & _). cbn [bo_R bo_v bo_p] in *.
  assert (Dl : duration l = 1) by (unfold l; rewrite pairs_duration; cbn; lra). rewrite Dl in *. split; [exact M1|]. split; [rewrite M2; apply m3_ext; simpl; ring|].
  clear M1 M2. revert M4. generalize (cp_al (cpi_run (cpi_new true mzero v3zero v3zero) l)). intros al M4. pose proof (f_equal vx M4) as X. pose proof (f_equal vy M4) as Y. unfold exy_a in X, Y. simpl in X, Y. lra.
Qed.
Lemma sumn_one m f i : (forall j, (j < m)%nat -> 0 <= f j) -> (i < m)%nat -> f i <= sumn m f.
Proof.
  induction m as [|m IH]; intros H Hi; [lia|]. cbn [sumn]. pose proof (H m ltac:(lia)). destruct (Nat.eq_dec i m) as [->|N].
  - pose proof (sumn_nonneg m f ltac:(intros; apply H; lia)). lra.
  - specialize (IH ltac:(intros; apply H; lia) ltac:(lia)). lra.
Qed.
Definition rowp (r : yrow) : R := 5 / 10 * yr_DT r * yr_DT r * vx (yr_y r) * yr_b r.
Lemma exy_rowp c : vx (cp_al c) = 1 / 2 -> forall cs k, cpi_at cs 3 = (0, m3id, v3zero, v3zero) -> cpi_at cs 4 = (1, m3id, cp_al c, cp_be c) ->
  forall r, In r (rows_of cs k (Q4 0 0 0 1, v3zero) 3 (0, 0) ++ rows_of cs k (Q4 0 0 0 1, v3zero) 4 (0, 0)) -> 0 <= rowp r.
Proof.
  intros Ha cs k A3 A4 r. unfold rows_of. rewrite A3, A4. intros [<-|[<-|[<-|[<-|[]]]]]; unfold rowp; simpl; rewrite ?Ha; try lra.
  unfold v3dot; simpl. rewrite ?Ha. lra.
Qed.
Lemma zero_feats x : (forall i, x i = 0) -> forall l k, exists r, guess_feats exy_o x k (map (fun i => (i, exy_g i)) l) = Ok r /\ length r = length l.
Proof.
  intros Hx. induction l as [|i l IH]; intros k; [exists []; auto|]. cbn [map guess_feats]. destruct (IH (S k)) as (r & Er & Lr).
  assert (If : in_front exy_o (seg x (3 * k)) (exy_g i) = Ok true).
  { unfold in_front, exy_g. cbn [f_ts ofold fst exy_o yo_ext alook Nat.eqb obind snd]. unfold seg. rewrite !Hx. cbn [andb]. rewrite lt_f; [reflexivity|]. simpl. lra. }
  cbv zeta. rewrite If. cbn [obind]. rewrite Er. cbn [obind]. eexists. split; [reflexivity|]. cbn [length]. rewrite Lr. reflexivity.
Qed.
Lemma reduce_zero m n A b i3 rk ev : exists P A2 D d, reduce (mkAlg (fun _ _ => mzero) i3 rk ev) m n A b = (P, A2, D, d) /\ (forall i j, P i j = 0) /\ vx d = dot m (fun i => A i (n + 0)%nat) b.
Proof.
  eexists; eexists; eexists; eexists. split; [reflexivity|]. split.
  - intros i j. unfold mmul, ya_inv, mzero. apply sumn_zero. intros; ring.
  - cbn [v3_of vx]. pose proof (temp_vec (mkAlg (fun _ _ => mzero) i3 rk ev) m n A b) as T. unfold Temp in T. rewrite T. apply dot_ext. intros i _.
    assert (Z : mvec n A (mvec n mzero (fun j => dot m (fun q => A q j) b)) i = 0); [|cbn [ya_inv]; rewrite Z; ring].
    unfold mvec at 1. apply sumn_zero. intros j _. unfold mvec, mzero. rewrite (sumn_zero n); [ring|]. intros; ring.
Qed.
Lemma exy_any : exists L gu, dyn_core L exy_o exy_cut [rdg 2; rdg 3; rdg (7 / 2); rdg 4; rdg 5] 4 = Ok (Some gu).
Proof.
  destruct exy_scan as (S1 & S2 & S3 & S4). set (data := [rdg 2; rdg 3; rdg (7 / 2); rdg 4; rdg 5]).
  assert (Se : init_select_imu_readings data (3 + 0) (4 + 0) = Ok [rdg 3; rdg (7 / 2); rdg 4]) by (apply exy_select; lra).
  destruct exy_c as (C1 & C2 & C3 & C4). set (c := cpi_run (cpi_new true mzero v3zero v3zero) (pairs_of [rdg 3; rdg (7 / 2); rdg 4])) in *.
  assert (Pr : preint exy_o data 3 4 = Ok (Some c)).
  { unfold preint. cbn [exy_o yo_dt yo_Qc yo_bg yo_ba]. rewrite Se. cbn [obind length Nat.ltb Nat.leb]. cbv zeta. cbn [last hd rdg i_t]. rewrite Rabs_right by lra. rb. reflexivity. }
  clearbody c.
  set (cs := [(3, None); (4, Some (c, c))] : cpis).
  assert (Pa : preint_all exy_o data 3 0 [3; 4] = Ok (Some cs)).
  { cbn [preint_all]. rb. rewrite Pr. reflexivity. }
  assert (A3 : cpi_at cs 3 = (0, m3id, v3zero, v3zero)) by (unfold cpi_at, cs; cbn [find fst]; rb; reflexivity).
  assert (A4 : cpi_at cs 4 = (1, m3id, cp_al c, cp_be c)) by (unfold cpi_at, cs; cbn [find fst]; rb; rewrite C1, C2; reflexivity).
  clearbody cs. set (e := (Q4 0 0 0 1, v3zero)).
  assert (Rw : forall k i, feat_rows exy_o [3; 4] cs k (exy_g i) (f_ts (exy_g i)) = Ok (rows_of cs k e 3 (0, 0) ++ rows_of cs k e 4 (0, 0))).
  { intros k i. unfold exy_g. cbn [f_ts feat_rows exy_o yo_ext alook Nat.eqb f_uvn aget cam_rows tfind existsb]. unfold tfind. cbn [existsb]. rb. cbn [orb obind app]. unfold aget. cbn [alook Nat.eqb]. cbn [cam_rows]. unfold e. rewrite ?app_nil_r. reflexivity. }
  assert (Ar : forall l k, exists rows, all_rows exy_o [3; 4] cs k (map (fun i => (i, exy_g i)) l) = Ok rows /\ length rows = (4 * length l)%nat /\ (forall r, In r rows -> 0 <= rowp r)).
  { induction l as [|i l IH]; intros k; [exists []; split; [reflexivity|]; split; [reflexivity|intros r []]|]. cbn [map all_rows]. rewrite Rw. cbn [obind]. destruct (IH (S k)) as (rows & -> & Lr & Pr'). cbn [obind].
    eexists. split; [reflexivity|]. split; [rewrite !app_length, !rows_of_len, Lr; cbn [length]; lia|]. intros r Hr. apply in_app_or in Hr. destruct Hr as [Hr|Hr]; [apply (exy_rowp c C3 cs k A3 A4 r Hr)|apply Pr', Hr]. }
  destruct (Ar (seq 1 7) 1%nat) as (rest & Er & Lr & Pr'). set (r0 := rows_of cs 0 e 3 (0, 0) ++ rows_of cs 0 e 4 (0, 0)).
  assert (Era : all_rows exy_o [3; 4] cs 0 exy_cut = Ok (r0 ++ rest)) by (rewrite exy_cut_eq; cbn [map all_rows]; rewrite Rw; cbn [obind]; cbn [map] in Er; rewrite Er; reflexivity).
  set (rows := r0 ++ rest) in *.
  assert (Lrows : length rows = 32%nat) by (unfold rows, r0; rewrite !app_length, !rows_of_len, Lr, seq_length; reflexivity).
  assert (Prow : forall r, In r rows -> 0 <= rowp r) by (intros r Hr; unfold rows in Hr; apply in_app_or in Hr; destruct Hr as [Hr|Hr]; [apply (exy_rowp c C3 cs 0 A3 A4 r Hr)|apply Pr', Hr]).
  assert (R2 : exists r, nth_error rows 2 = Some r /\ 0 < rowp r).
  { unfold rows, r0, rows_of. rewrite A3, A4. cbn [app nth_error]. eexists. split; [reflexivity|]. unfold rowp, v3dot; simpl. rewrite C3. lra. }
  set (dx := dot 32 (fun i => sysA 8 rows i (27 + 0)%nat) (sysb rows)).
  assert (Dp : 0 < dx).
  { destruct R2 as (r & N2 & P2). eapply Rlt_le_trans; [exact P2|]. unfold dx, dot.
    assert (Ei : forall i r, nth_error rows i = Some r -> sysA 8 rows i (27 + 0)%nat * sysb rows i = rowp r) by (intros i r1 E1; unfold sysA, sysb; rewrite E1; unfold row_entry, rowp; cbn [Nat.add Nat.mul Nat.leb Nat.sub v3nth]; ring).
    rewrite <- (Ei 2%nat r N2). apply (sumn_one 32 (fun i => sysA 8 rows i (27 + 0)%nat * sysb rows i) 2); [|lia]. intros j Hj. destruct (nth_error rows j) as [r1|] eqn:E1; [|apply nth_error_None in E1; lia].
    rewrite (Ei j r1 E1). apply Prow. eapply nth_error_In; exact E1. }
  clearbody rows.
  exists (mkAlg (fun _ _ => mzero) (fun _ => M3 0 0 0 0 0 0 (981 / 100 / dx) 0 0) (fun _ => 6%nat) (fun _ => Some [(0, 0)])).
  set (L := mkAlg _ _ _ _). unfold dyn_core. cbv zeta. rewrite exy_valid, S1, S2, S3, S4. cbn [length].
  change (Z.of_nat 2 <? yo_npose exy_o)%Z with false. change (8 <? 8)%nat with false. cbv iota. change (yo_dt exy_o) with 0. rewrite Se. cbn [obind length]. change (2 <? 3)%nat with true. unfold guard at 1.
  assert (Tn : Rltb (180 / PI * turned (yo_bg exy_o) [rdg 3; rdg (7 / 2); rdg 4]) (yo_deg exy_o) = false).
  { apply lt_f. change (yo_deg exy_o) with 0. apply Rmult_le_pos; [apply Rlt_le, Rdiv_lt_0_compat; [lra|apply PI_RGT_0]|]. unfold turned. cbn [hd tl]. 
    repeat apply Rplus_le_le_0_compat; try lra; apply sqrt_pos. }
  rewrite Tn. change (32 <? 3 * 8 + 6)%nat with false. cbv iota. rewrite (lt_t 3 4) by lra. unfold guard at 1. unfold otry. rewrite Pa. cbn [obind]. rewrite Era. cbn [obind]. rewrite Lrows. change (32 <=? 32)%nat with true. unfold guard.
  change (3 * 8 + 3)%nat with 27%nat. change (yo_g exy_o) with (981 / 100).
  assert (So : exists x g, solve L (981 / 100) 32 27 (sysA 8 rows) (sysb rows) = Some (x, g) /\ (forall i, x i = 0) /\ g = V3 0 0 (981 / 100)).
  { unfold solve. destruct (reduce_zero 32 27 (sysA 8 rows) (sysb rows) (fun _ => M3 0 0 0 0 0 0 (981 / 100 / dx) 0 0) (fun _ => 6%nat) (fun _ => Some [(0, 0)])) as (P & A2 & D & d & Ed & Pz & Dz). fold L in Ed. rewrite Ed.
    fold dx in Dz. cbn [L ya_rank Nat.eqb negb ya_eigs].
    assert (Gv : forall l, grav_for L D d l = V3 0 0 (981 / 100)) by (intros l; unfold grav_for; cbn [L ya_inv3]; apply v3_ext; simpl; rewrite ?Dz; field; lra).
    assert (Nv : v3norm (V3 0 0 (981 / 100)) = 981 / 100) by (unfold v3norm, v3dot; simpl; replace (0 * 0 + 0 * 0 + 981 / 100 * (981 / 100)) with ((981 / 100) * (981 / 100)) by ring; apply sqrt_square; lra).
    unfold best_lambda. cbn [fold_left fst snd]. rb. rewrite !Gv, !Nv. cbn [option_map fst]. rewrite Gv, Nv. replace (981 / 100 - 981 / 100) with 0 by ring. rewrite Rabs_R0. rb.
    eexists; eexists. split; [reflexivity|]. split; [|reflexivity]. intros i.
    assert (Z1 : forall y, mvec 32 P y i = 0) by (intros y; unfold mvec; apply sumn_zero; intros; rewrite Pz; ring). rewrite Z1, mvec_mmul, Z1. ring. }
  destruct So as (x & g & -> & Hx & ->). destruct (zero_feats x Hx (0%nat :: seq 1 7) 0) as (fs & Ef & Lf). rewrite <- exy_cut_eq in Ef. rewrite Ef. cbn [obind]. rewrite Lf. cbn [length]. rewrite seq_length. change (8 <? 8)%nat with false. cbv iota.
  destruct (gram_schmidt_rot (V3 0 0 (981 / 100))) as (Rg & -> & _); [intros X; injection X as X; lra|]. eexists. reflexivity.
Qed.
Lemma exy_guess : exists L gu, dynamic_guess L exy_o exy_db exy_data = Ok (Some gu, exy_cut, [rdg 2; rdg 3; rdg (7 / 2); rdg 4; rdg 5]).
Proof.
  destruct exy_any as (L & gu & E). exists L, gu. unfold dynamic_guess. cbv zeta. rewrite exy_newest. change (yo_window exy_o) with 2. rb. cbn [orb]. rewrite exy_cleanup by reflexivity. cbn [obind].
  change (yo_dt exy_o) with 0. rewrite exy_cutdata. rewrite exy_len. change (yo_maxf exy_o) with 8%Z. rewrite lt_f by (cbn; lra). cbn [length exy_data Nat.ltb Nat.leb Nat.eqb orb]. rewrite E. reflexivity.
Qed.
(** the assert on the number of readings can fail *)
Lemma exy_few L : dyn_core L exy_o exy_cut [rdg 2; rdg 3; rdg 4; rdg 5] 4 = UB.
Proof.
  destruct exy_scan as (S1 & S2 & S3 & S4). unfold dyn_core. cbv zeta. rewrite S1, S2, S3, S4. cbn [length].
  change (Z.of_nat 2 <? yo_npose exy_o)%Z with false. change (8 <? 8)%nat with false. cbv iota. change (yo_dt exy_o) with 0.
  assert (Se : init_select_imu_readings [rdg 2; rdg 3; rdg 4; rdg 5] (3 + 0) (4 + 0) = Ok [rdg 3; rdg 4]).
  { unfold init_select_imu_readings. cbn [sel_loop i_t rdg]. repeat (rb; cbn [sel_loop i_t rdg andb app obind]). unfold compact. cbn [i_t rdg]. rewrite !Rabs_right by lra. rb. reflexivity. }
  rewrite Se. reflexivity.
Qed.
Lemma exy_known : cams_known exy_o exy_cut.
Proof. intros id f cam ts H Hc. apply in_map_iff in H. destruct H as (i & E & _). injection E as <- <-. destruct Hc as [E|[]]. injection E as <- <-. exists (Q4 0 0 0 1, v3zero). reflexivity. Qed.
Lemma exy_enough t rd : measured exy_cut t -> t < 4 -> init_select_imu_readings [rdg 2; rdg 3; rdg (7 / 2); rdg 4; rdg 5] (t + yo_dt exy_o) (4 + yo_dt exy_o) = Ok rd -> (3 <= length rd)%nat.
Proof.
  intros (id & f & E & cam & ob & I & T) Lt. apply alook_some_key in E. unfold exy_cut in E. apply in_map_iff in E. destruct E as (i & E & _). injection E as <- <-.
  destruct cam as [|cam]; cbn in I; [|destruct I]. destruct I as [<-|[<-|[]]]; cbn in T; subst t; [|lra]. change (yo_dt exy_o) with 0. rewrite exy_select by lra. intros X. injection X as <-. cbn. lia.
Qed.
