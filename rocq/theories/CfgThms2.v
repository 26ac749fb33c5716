(** The theorems about the configuration loading, continued. *)
From Coq Require Import Reals List Arith Bool ZArith String Ascii Lia Lra.
From Verif Require Import Outcome RBool GeoModel GeoSpec GeoProofs Lin DbModel DbProofs FeatModel CamModel TypesModel ImuModel PropModel PropSpec PropThms DescProofs CfgModel CfgSpec CfgProofs CfgThms.
Import ListNotations.
Open Scope R_scope.

(** ** the flag stays up: every required value was given *)
Definition strict {T} (pf : node -> string -> T -> bool -> M T) (names : list string) (nm : string) : Prop :=
  forall n x v, gives (pf n nm x true) v true -> exists a, In a names /\ child n a <> None.
Lemma strict_parse {T} (rd : node -> option T) nm : strict (parse rd) [nm] nm.
Proof.
  intros n x v G. unfold parse, gives in G. exists nm. split; [now left|]. apply child_found.
  destruct (node_found n nm); auto. discriminate.
Qed.
Lemma strict_bool O nm : strict (parse_bool O) [nm] nm.
Proof.
  intros n x v G. unfold parse_bool, gives in G. exists nm. split; [now left|]. apply child_found.
  destruct (node_found n nm); auto. discriminate.
Qed.
Lemma strict_m3 O nm : strict (parse_m3 O) [nm] nm.
Proof.
  intros n x v G. unfold parse_m3, gives in G. exists nm. split; [now left|]. apply child_found.
  destruct (node_found n nm); auto. discriminate.
Qed.
Lemma strict_m4 O : strict (parse_m4 O) ["T_imu_cam"; "T_cam_imu"]%string "T_imu_cam".
Proof.
  intros n x v G. unfold parse_m4, gives in G. cbv zeta in G. simpl in G.
  destruct (node_found n "T_imu_cam") eqn:F; simpl in G.
  - exists "T_imu_cam"%string. split; [simpl; auto|]. now apply child_found.
  - destruct (node_found n "T_cam_imu") eqn:F2; simpl in G; [|discriminate].
    exists "T_cam_imu"%string. split; [simpl; auto|]. now apply child_found.
Qed.
Lemma config_given {T} P (rr : node -> option T) pf nm x v : strict pf [nm] nm -> ps_cfg P <> None ->
  gives (parse_config P rr pf nm x true) v true -> given P nm.
Proof.
  intros H C G. unfold parse_config in G. unfold given. destruct (ros P rr nm) eqn:E.
  - left. unfold ros in E. destruct (ps_ros P nm); congruence.
  - right. destruct (ps_cfg P) as [root|] eqn:Er; [|congruence]. destruct (H _ _ _ G) as (a & [<-|[]] & Ha).
    destruct (child root nm) as [n|] eqn:Ec; [|congruence]. exists n, root. auto.
Qed.
Lemma yaml_given {T} P (pf : node -> string -> T -> bool -> M T) ext s names nm x v : strict pf names nm -> (forall n a y z, indep (pf n a y z)) -> ps_cfg P <> None ->
  gives (ext_yaml P pf ext s nm x true) v true -> given_in P ext s names.
Proof.
  intros H I0 C G. unfold ext_yaml in G. destruct (ps_cfg P) as [root|] eqn:Er; [|congruence].
  destruct (node_found root ext) eqn:F; simpl in G; [|apply gives_lift in G; destruct G; discriminate].
  apply gives_bind in G; [|apply indep_lift|intros; ind; apply I0]. destruct G as (path & b & c & G1 & G & K).
  apply gives_lift in G1. destruct G1 as (G1 & ->). simpl in K. subst c. destruct (child root ext) as [pn|] eqn:Ec; [|discriminate].
  apply look_ok in G1. destruct (ps_open P (config_folder P ++ path)) as [f|] eqn:Eo; [|apply gives_lift in G; destruct G; discriminate].
  destruct (node_found f s) eqn:Fs; simpl in G; [|discriminate]. destruct (child f s) as [sec|] eqn:Es; [|discriminate].
  destruct (H _ _ _ G) as (a & Ha & Ca). destruct (child sec a) as [n|] eqn:En; [|congruence].
  exists a. split; auto. right. exists root, pn, f, sec, n. repeat split; auto. exists path. auto.
Qed.
Lemma external_given {T} P (rr : node -> option T) pf ext s nm x v : strict pf [nm] nm -> (forall n a y z, indep (pf n a y z)) -> ps_cfg P <> None ->
  gives (parse_external P rr pf ext s nm x true) v true -> given_in P ext s [nm].
Proof.
  intros H I0 C G. unfold parse_external in G. destruct (ros P rr _) eqn:E; [|eapply yaml_given; eauto].
  exists nm. split; [now left|]. left. unfold ros in E. destruct (ps_ros P (s ++ "_" ++ nm)); congruence.
Qed.
Lemma m3_given P ext s nm x v : ps_cfg P <> None -> gives (external_m3 P ext s nm x true) v true -> given_in P ext s [nm].
Proof.
  intros C G. unfold external_m3 in G. destruct (ros P _ _) eqn:E; [|eapply yaml_given; eauto; [apply strict_m3|intros; apply ind_m3]].
  exists nm. split; [now left|]. left. unfold ros in E. destruct (ps_ros P (s ++ "_" ++ nm)); congruence.
Qed.
Lemma m4_given P ext s x v : ps_cfg P <> None -> gives (external_m4 P ext s "T_imu_cam" x true) v true -> given_in P ext s ["T_imu_cam"; "T_cam_imu"]%string.
Proof.
  intros C G. unfold external_m4 in G. destruct (ros P _ _) eqn:E; [|eapply yaml_given; eauto; [apply strict_m4|intros; apply ind_m4]].
  exists "T_imu_cam"%string. split; [now left|]. left. unfold ros in E. destruct (ps_ros P (s ++ "_" ++ "T_imu_cam")); congruence.
Qed.
Lemma gives_bind_t {A B} (m : M A) (f : A -> M B) x : indep m -> (forall a, indep (f a)) -> gives (mbind m f) x true ->
  exists a, gives m a true /\ gives (f a) x true.
Proof. intros Hm Hf G. apply gives_bind in G; auto. destruct G as (a & b & c & G1 & G2 & K). symmetry in K. apply and_t in K. destruct K as (-> & ->). eauto. Qed.
Ltac gt H a G := apply gives_bind_t in H; [destruct H as (a & G & H)|solve [intros; ind]|solve [intros; ind]].
Lemma read_cam_given P d i r : ps_cfg P <> None -> gives (read_cam P d i) r true ->
  forall names, In names [["distortion_model"]; ["intrinsics"]; ["distortion_coeffs"]; ["resolution"]; ["T_imu_cam"; "T_cam_imu"]]%string ->
  given_in P "relative_config_imucam" (cam_name i) names.
Proof.
  intros C G. unfold read_cam in G. cbv zeta in G. gt G qm G1. gt G qa G2. gt G qb G3. gt G qv G4. gt G qw0 G5. gt G qx0 G6. gt G qy0 G7. gt G qT G8.
  intros names Hn. simpl in Hn. decompose [or] Hn; try contradiction; subst names;
    first [eapply m4_given; eassumption | eapply external_given; [apply strict_parse|intros; apply ind_parse|exact C|eassumption]].
Qed.
Lemma load_imu_given P m c : ps_cfg P <> None -> gives (load_imu P m) c true ->
  forall nm, In nm ["Tw"; "Ta"; "R_IMUtoACC"; "R_IMUtoGYRO"; "Tg"]%string -> given_in P "relative_config_imu" "imu0" [nm].
Proof.
  intros C G. unfold load_imu in G. cbv zeta in G. gt G z1 G1. gt G z2 G2. gt G z3 G3. gt G z4 G4. gt G z5 G5.
  intros nm Hn. simpl in Hn. decompose [or] Hn; try contradiction; subst nm; eapply m3_given; eassumption.
Qed.
Lemma success_thm P k v : load_all P k = Ok (v, true) -> ps_cfg P <> None ->
  (forall nm, In nm ["calib_imu_intrinsics"; "calib_imu_g_sensitivity"; "max_cameras"; "downsample_cameras"; "gravity_mag"; "use_mask"]%string -> given P nm) /\
  (forall i, (Z.of_nat i < vc_n v)%Z -> forall names, In names [["distortion_model"]; ["intrinsics"]; ["distortion_coeffs"]; ["resolution"]; ["T_imu_cam"; "T_cam_imu"]]%string ->
     given_in P "relative_config_imucam" (cam_name i) names) /\
  (forall nm, In nm ["model"; "Tw"; "Ta"; "R_IMUtoACC"; "R_IMUtoGYRO"; "Tg"]%string -> given_in P "relative_config_imu" "imu0" [nm]).
Proof.
  intros E C. destruct (gives_of _ _ _ _ (ind_all P) E) as (b & G & K). symmetry in K. apply and_t in K. destruct K as (_ & ->).
  apply take_apart in G. destruct G as [(n1 & Gn & Kn) (c1 & Gc & Kc) (g1 & Gg & Kg) (m1 & s & Gm & Km & _) _ (d1 & Gd & Kd) (r1 & Gr & Kr) (l1 & Gl & Kl) (u1 & um & Gu & Ku & _) (i1 & Gi & Ki) _].
  rewrite Kn in Gn by auto. rewrite Kc in Gc by auto. rewrite Kg in Gg by auto. rewrite Km in Gm by auto. rewrite Kd in Gd by auto.
  rewrite Kr in Gr by auto. rewrite Kl in Gl by auto. rewrite Ku in Gu by auto. rewrite Ki in Gi by auto.
  split; [|split].
  - intros nm Hn. simpl in Hn. decompose [or] Hn; try contradiction; subst nm;
      (eapply config_given; [|exact C|eassumption]; first [apply strict_parse|apply strict_bool]).
  - intros i Hi. destruct (fresh_cams _ _ _ _ _ Gl) as (A & _). destruct (A i) as (r & br & R1 & R2 & _); [lia|].
    rewrite R2 in R1 by auto. eapply read_cam_given; eauto.
  - intros nm [<-|Hn]; [eapply external_given; [apply strict_parse|intros; apply ind_parse|exact C|exact Gm]|eapply load_imu_given; eauto].
Qed.

(** ** the filter and the initializer agree *)
Lemma agree_thm P k v k' : load_all P k = Ok (v, k') ->
  ic_n (vc_init v) = vc_n v /\ ic_down (vc_init v) = vc_down v /\ ic_grav (vc_init v) = vc_grav v /\ ic_cal (vc_init v) = vc_cal v.
Proof.
  intros E. destruct (gives_of _ _ _ _ (ind_all P) E) as (b & G & _). apply take_apart in G.
  destruct G as [(n1 & Gn & _) _ _ _ (i1 & Gi & _) (d1 & Gd & _) (r1 & Gr & _) (l1 & Gl & _) _ _ _].
  unfold load_init in Gi. gb Gi qg f1 k1 G1. gb Gi qn f2 k2 G2. gb Gi qd f3 k3 G3. gb Gi qc f4 k4 G4. gb Gi qu f5 k5 G5.
  apply gives_ret in Gi. destruct Gi as (-> & _). cbn [ic_n ic_down ic_grav ic_cal].
  destruct (gives_fun _ _ _ _ _ G1 Gr) as (-> & _). destruct (gives_fun _ _ _ _ _ G2 Gn) as (-> & _).
  destruct (gives_fun _ _ _ _ _ G3 Gd) as (-> & _). destruct (gives_fun _ _ _ _ _ G4 Gl) as (-> & _). auto.
Qed.
Lemma keys_thm P k v k' : load_all P k = Ok (v, k') -> (0 <= vc_n v)%Z /\
  forall i, ((Z.of_nat i < vc_n v)%Z -> alook (ca_cams (vc_cal v)) i <> None /\ alook (ca_ext (vc_cal v)) i <> None) /\
            ((vc_n v <= Z.of_nat i)%Z -> alook (ca_cams (vc_cal v)) i = None /\ alook (ca_ext (vc_cal v)) i = None).
Proof.
  intros E. destruct (gives_of _ _ _ _ (ind_all P) E) as (b & G & _). apply take_apart in G.
  destruct G as [_ _ _ _ _ _ _ (l1 & Gl & _) _ _ (S1 & _)]. split; [lia|].
  destruct (fresh_cams _ _ _ _ _ Gl) as (A & B & _). intros i. split; intros Hi; [|apply B; lia].
  destruct (A i) as (r & br & _ & _ & -> & ->); [lia|]. split; discriminate.
Qed.

(** ** cameras *)
Lemma scale_pixel down c z j : (j < 2)%nat -> cam_distort (file_kind c) (scaled down c) z j = scale2 down * file_pixel c z j.
Proof.
  intros Hj. unfold file_pixel, file_vals, scaled, scale2. destruct (cf_f c) as [[[a0 a1] a2] a3], (cf_d c) as [[[b0 b1] b2] b3].
  destruct (file_kind c), j as [|[|]]; try lia; destruct down; unfold cam_distort, rt_distort, eq_distort, eq_thd, row8, vec2; cbv zeta; simpl; field.
Qed.
Lemma cam_thm P k v k' i sec c : load_all P k = Ok (v, k') -> quiet P -> faithful (ps_oc P) -> (Z.of_nat i < vc_n v)%Z ->
  section P "relative_config_imucam" (cam_name i) sec -> cam_section sec c ->
  exists o e, alook (ca_cams (vc_cal v)) i = Some o /\ alook (ca_ext (vc_cal v)) i = Some e /\
    cc_kind o = file_kind c /\ (cc_w o, cc_h o) = size_at (vc_down v) c /\
    (forall z j, (j < 2)%nat -> cam_distort (cc_kind o) (cc_val o) z j = scale2 (vc_down v) * file_pixel c z j) /\
    unit_q (fst e) /\ forall x, v3add (m3v (quat_2_Rot (fst e)) (v3add (m3v (seR (cf_T c)) x) (set_ (cf_T c)))) (snd e) = x.
Proof.
  intros E Q F Hi Sc Kc. destruct (gives_of _ _ _ _ (ind_all P) E) as (b & G & _). apply take_apart in G.
  destruct G as [_ _ _ _ _ _ _ (l1 & Gl & _) _ _ _]. destruct (fresh_cams _ _ _ _ _ Gl) as (A & _).
  destruct (A i) as (r & br & R1 & _ & R2 & R3); [lia|]. pose proof (read_cam_file P (vc_down v) i sec c Q F Sc Kc) as R4.
  destruct (gives_fun _ _ _ _ _ R1 R4) as (-> & _). eexists _, _. split; [exact R2|]. split; [exact R3|]. cbn [cam_of fst snd cc_kind cc_w cc_h cc_val].
  split; [reflexivity|]. split; [unfold size_at, half; destruct (vc_down v); reflexivity|].
  split; [intros; now apply scale_pixel|].
  destruct Kc as (_ & _ & _ & _ & Rt & _). set (T := cf_T c) in *.
  assert (Rr : is_rot (m3tr (seR T))). { destruct Rt as (A1 & A2 & A3). repeat split; [exact A2|exact A1|]. rewrite <- A3. unfold m3det; simpl; ring. }
  destruct (rot_2_quat_spec _ Rr) as (U & _ & Eq). split; [exact U|]. intros x. rewrite Eq.
  destruct Rt as (_ & A2 & _). transitivity (m3v (m3mul (m3tr (seR T)) (seR T)) x); [|rewrite A2; apply m3v_id].
  rewrite m3v_mul. apply v3_ext; simpl; ring.
Qed.

(** ** masks *)
Lemma masks_inv P c l : forall ms b, gives (load_masks P c l) ms b -> map fst ms = l /\
  forall i s, In (i, s) ms -> exists o, alook (ca_cams c) i = Some o /\ s = (cc_w o, cc_h o).
Proof.
  induction l as [|i l IH]; intros ms b G; cbn [load_masks] in G.
  - apply gives_ret in G. destruct G as (-> & _). split; auto. intros ? ? [].
  - gb G qm f1 k1 G1. gb G qms f2 k2 G2. apply gives_ret in G. destruct G as (-> & _). destruct (IH _ _ G2) as (I1 & I2).
    split; [simpl; congruence|]. intros j s [Ej|Hj]; [|eauto]. injection Ej as <- <-.
    unfold load_mask in G1. gb G1 qp f3 k3 G3. destruct (ps_mask P (config_folder P ++ qp)) as [[cols rows]|]; [|apply gives_lift in G1; destruct G1; discriminate].
    gb G1 qo f4 k4 G4. apply gives_lift in G4. destruct G4 as (G4 & _). apply look_ok in G4. exists qo. split; auto.
    destruct (Z.eqb_spec cols (cc_w qo)); simpl in G1; [|apply gives_lift in G1; destruct G1; discriminate].
    destruct (Z.eqb_spec rows (cc_h qo)); simpl in G1; [|apply gives_lift in G1; destruct G1; discriminate].
    apply gives_ret in G1. destruct G1 as (-> & _). congruence.
Qed.
Lemma mask_thm P k v k' : load_all P k = Ok (v, k') ->
  (vc_masks v = [] \/ map fst (vc_masks v) = seq 0 (Z.to_nat (vc_n v))) /\
  forall i s, In (i, s) (vc_masks v) -> exists o, alook (ca_cams (vc_cal v)) i = Some o /\ s = (cc_w o, cc_h o).
Proof.
  intros E. destruct (gives_of _ _ _ _ (ind_all P) E) as (b & G & _). apply take_apart in G.
  destruct G as [_ _ _ _ _ _ _ _ (u1 & um & Gu & Ku & Gm) _ _]. destruct um.
  - destruct Gm as (b2 & Gm & _). apply masks_inv in Gm. destruct Gm; auto.
  - rewrite Gm. split; [auto|]. intros ? ? [].
Qed.
Lemma mask_size_thm P k v k' i s sec c : load_all P k = Ok (v, k') -> quiet P -> faithful (ps_oc P) -> (Z.of_nat i < vc_n v)%Z ->
  section P "relative_config_imucam" (cam_name i) sec -> cam_section sec c -> In (i, s) (vc_masks v) ->
  let mask := tracked_size (vc_down v) s in let img := tracked_size (vc_down v) (cf_w c, cf_h c) in
  (vc_down v = false -> mask = img) /\ (vc_down v = true -> (2 <= cf_w c)%Z -> (fst mask < fst img)%Z).
Proof.
  intros E Q F Hi Sc Kc Hs. destruct (cam_thm _ _ _ _ _ _ _ E Q F Hi Sc Kc) as (o & e & A1 & _ & _ & A2 & _).
  destruct (mask_thm _ _ _ _ E) as (_ & B). destruct (B _ _ Hs) as (o' & B1 & ->). assert (o' = o) by congruence. subst o'.
  rewrite A2. cbv zeta. unfold size_at, tracked_size, half. destruct (vc_down v); split; intros; try discriminate; auto. simpl.
  assert (2 <= cf_w c)%Z by auto. assert (0 < cf_w c ÷ 2)%Z by (apply Z.quot_str_pos; lia). apply Z.quot_lt; lia.
Qed.

(** ** IMU *)
Definition m3adj (A : m3) : m3 :=
  M3 (m11 A * m22 A - m12 A * m21 A) (m02 A * m21 A - m01 A * m22 A) (m01 A * m12 A - m02 A * m11 A)
     (m12 A * m20 A - m10 A * m22 A) (m00 A * m22 A - m02 A * m20 A) (m02 A * m10 A - m00 A * m12 A)
     (m10 A * m21 A - m11 A * m20 A) (m01 A * m20 A - m00 A * m21 A) (m00 A * m11 A - m01 A * m10 A).
Lemma adj_l A : m3mul (m3adj A) A = m3scal (m3det A) m3id.
Proof. apply m3_ext; unfold m3det; simpl; ring. Qed.
Lemma adj_r A : m3mul A (m3adj A) = m3scal (m3det A) m3id.
Proof. apply m3_ext; unfold m3det; simpl; ring. Qed.
Lemma left_inv A B : m3det A <> 0 -> m3mul A B = m3id -> m3mul B A = m3id.
Proof.
  intros D H. assert (E : m3adj A = m3scal (m3det A) B).
  { rewrite <- (m3mul_id_r (m3adj A)), <- H, <- m3mul_assoc, adj_l. apply m3_ext; simpl; ring. }
  assert (K : B = m3scal (/ m3det A) (m3adj A)). { rewrite E. apply m3_ext; simpl; field; auto. }
  rewrite K. transitivity (m3scal (/ m3det A) (m3mul (m3adj A) A)); [apply m3_ext; simpl; ring|]. rewrite adj_l. apply m3_ext; simpl; field; auto.
Qed.
Lemma nz a b : a * b = 1 -> a <> 0. Proof. intros H ->. lra. Qed.
Lemma tri_inv m T D : triangular m T -> m3mul T D = m3id -> triangular m D.
Proof.
  intros H E. injection E as E00 E01 E02 E10 E11 E12 E20 E21 E22. destruct m; simpl in *; destruct H as (H1 & H2 & H3); rewrite H1, H2, H3 in *.
  - assert (N0 : m00 T <> 0) by (apply (nz _ (m00 D)); lra).
    assert (D01 : m01 D = 0) by (apply (Rmult_eq_reg_l (m00 T)); lra). assert (D02 : m02 D = 0) by (apply (Rmult_eq_reg_l (m00 T)); lra).
    rewrite D01, D02 in *. assert (N1 : m11 T <> 0) by (apply (nz _ (m11 D)); lra).
    assert (D12 : m12 D = 0) by (apply (Rmult_eq_reg_l (m11 T)); lra). auto.
  - assert (N2 : m22 T <> 0) by (apply (nz _ (m22 D)); lra).
    assert (D20 : m20 D = 0) by (apply (Rmult_eq_reg_l (m22 T)); lra). assert (D21 : m21 D = 0) by (apply (Rmult_eq_reg_l (m22 T)); lra).
    rewrite D20, D21 in *. assert (N1 : m11 T <> 0) by (apply (nz _ (m11 D)); lra).
    assert (D10 : m10 D = 0) by (apply (Rmult_eq_reg_l (m11 T)); lra). auto.
Qed.
Definition imu_of (P : parser) (m : imu_model) (f : imufile) : cimu :=
  mkImuc (load_D m (ps_solve P (if_Tw f))) (load_D m (ps_solve P (if_Ta f))) (load_Tg (if_Tg f)) (rot_2_quat (m3tr (if_Rg f))) (rot_2_quat (m3tr (if_Ra f))).
Lemma e3_gives P sec nm X x : quiet P -> faithful (ps_oc P) -> section P "relative_config_imu" "imu0" sec -> m3_entry sec nm X ->
  gives (external_m3 P "relative_config_imu" "imu0" nm x true) X true.
Proof.
  intros Q (Fi & Fr & Fs & _) Sc H. unfold external_m3. rewrite (ros_none P _ _ (Q _)). eapply yaml_section; eauto. apply m3_read; auto.
Qed.
Lemma load_imu_file P m sec f : quiet P -> faithful (ps_oc P) -> section P "relative_config_imu" "imu0" sec -> imu_section sec f ->
  gives (load_imu P m) (imu_of P m f) true.
Proof.
  intros Q F Sc (_ & H1 & H2 & H3 & H4 & H5). unfold load_imu. cbv zeta.
  do 5 (eapply bind_true; [eapply e3_gives; eauto|]). reflexivity.
Qed.
Lemma model_text P sec f x : quiet P -> faithful (ps_oc P) -> section P "relative_config_imu" "imu0" sec -> imu_section sec f ->
  gives (ext_str P "relative_config_imu" "imu0" "model" x true) (if_model f) true.
Proof. intros Q (Fi & Fr & Fs & _) Sc (H & _). unfold ext_str. apply (ext_gives P _ _ _ _ sec); auto. eapply parse_gives; [exact H|apply Fs]. Qed.
Definition model_of (f : imufile) : imu_model := if string_dec (if_model f) "rpng" then RPNG else KALIBR.
Lemma imu_loaded P k v k' sec f : load_all P k = Ok (v, k') -> quiet P -> faithful (ps_oc P) ->
  section P "relative_config_imu" "imu0" sec -> imu_section sec f ->
  In (if_model f) ["kalibr"; "calibrated"; "rpng"]%string /\ vc_model v = model_of f /\ vc_imu v = imu_of P (vc_model v) f.
Proof.
  intros E Q F Sc Kf. destruct (gives_of _ _ _ _ (ind_all P) E) as (b & G & _). apply take_apart in G.
  destruct G as [_ _ _ (m1 & s & Gm & _ & Km & _) _ _ _ _ _ (i1 & Gi & _) _].
  destruct (gives_fun _ _ _ _ _ Gm (model_text P sec f _ Q F Sc Kf)) as (-> & _).
  destruct (gives_fun _ _ _ _ _ Gi (load_imu_file P _ sec f Q F Sc Kf)) as (Ei & _). split; [|split; [|exact Ei]].
  - simpl. destruct Km as [(-> & _)|([-> | ->] & _)]; auto.
  - unfold model_of. destruct Km as [(-> & ->)|([-> | ->] & ->)]; reflexivity.
Qed.
Lemma tr_tr A : m3tr (m3tr A) = A. Proof. now destruct A. Qed.
Lemma rot_tr A : is_rot A -> is_rot (m3tr A).
Proof. intros (A1 & A2 & A3). repeat split; [now rewrite tr_tr|now rewrite tr_tr|]. rewrite <- A3. unfold m3det; simpl; ring. Qed.
Lemma imu_thm P k v k' sec f x m p w1 a1 w2 a2 : load_all P k = Ok (v, k') -> quiet P -> faithful (ps_oc P) -> solves P ->
  section P "relative_config_imu" "imu0" sec -> imu_section sec f ->
  m3det (if_Tw f) <> 0 -> m3det (if_Ta f) <> 0 -> is_rot (if_Rg f) -> is_rot (if_Ra f) ->
  triangular (if string_dec (if_model f) "rpng" then RPNG else KALIBR) (if_Tw f) -> triangular (if string_dec (if_model f) "rpng" then RPNG else KALIBR) (if_Ta f) ->
  unit_q (iv_q (ps_imu x)) -> let bg := iv_bg (ps_imu x) in let ba := iv_ba (ps_imu x) in
  i_w m = gyro f w1 a1 bg -> i_a m = accel f a1 ba -> i_w p = gyro f w2 a2 bg -> i_a p = accel f a2 ba ->
  let c := correct (with_imu x (vc_model v) (vc_imu v)) m p in
  c_w1 c = w1 /\ c_a1 c = a1 /\ c_w2 c = w2 /\ c_a2 c = a2.
Proof.
  intros E Q F So Sc Kf Dw Da Rg Ra Tw Ta U bg ba M1 M2 M3 M4. destruct (imu_loaded _ _ _ _ _ _ E Q F Sc Kf) as (_ & Em & Ei). rewrite Ei.
  fold (model_of f) in Tw, Ta. rewrite <- Em in Tw, Ta.
  destruct (rot_2_quat_spec _ (rot_tr _ Rg)) as (Ug & _ & Eg). destruct (rot_2_quat_spec _ (rot_tr _ Ra)) as (Ua & _ & Ea).
  set (y := with_imu x (vc_model v) (imu_of P (vc_model v) f)).
  assert (Iw : inverse_of (Dm (ps_model y) (ps_dw y)) (if_Tw f)).
  { unfold inverse_of, y, with_imu, imu_of. cbn [ps_model ps_dw im_dw]. rewrite (proj2 (load_D_thm (vc_model v) (ps_solve P (if_Tw f)))).
    - apply left_inv; auto.
    - apply (tri_inv _ (if_Tw f)); auto. }
  assert (Ia : inverse_of (Dm (ps_model y) (ps_da y)) (if_Ta f)).
  { unfold inverse_of, y, with_imu, imu_of. cbn [ps_model ps_da im_da]. rewrite (proj2 (load_D_thm (vc_model v) (ps_solve P (if_Ta f)))).
    - apply left_inv; auto.
    - apply (tri_inv _ (if_Ta f)); auto. }
  assert (Rd : forall w a, (gyro f w a bg, accel f a ba) = sim_reading (if_Tw f) (if_Ta f) (Tg_of (ps_tg y)) (ps_qw y) (ps_qa y) w a (iv_bg (ps_imu y)) (iv_ba (ps_imu y))).
  { intros w a. unfold sim_reading, y, with_imu, imu_of. cbn [ps_tg ps_qw ps_qa ps_imu im_tg im_qg im_qa]. rewrite Eg, Ea, !tr_tr, load_Tg_thm. reflexivity. }
  assert (Ok1 : pst_ok y) by (repeat split; [exact U|exact Ug|exact Ua]).
  destruct (sim_exact y (if_Tw f) (if_Ta f) m p w1 a1 w2 a2 Ok1 Iw Ia ltac:(rewrite M1, M2; apply Rd) ltac:(rewrite M3, M4; apply Rd)) as (C1 & C2 & C3 & C4 & _).
  auto.
Qed.

(** ** a complete configuration is loaded, with the flag up *)
Lemma cbool_gives P nm n b x : quiet P -> faithful (ps_oc P) -> says P nm n -> bool_node n b -> gives (cfg_bool P nm x true) b true.
Proof. intros Q (Fi & Fr & Fs & _) Sn Bn. eapply config_says; eauto. intros root C. eapply bool_read; eauto. Qed.
Lemma opt_gives {T} (rd : node -> option T) n nm x : exists v, gives (parse rd n nm x false) v true.
Proof. unfold parse. destruct (node_found n nm); simpl; [|eexists; reflexivity]. destruct (child n nm); [|eexists; reflexivity]. destruct (rd n0); eexists; reflexivity. Qed.
Lemma cams_total P d l cams : quiet P -> faithful (ps_oc P) ->
  (forall i, In i l -> exists sec, section P "relative_config_imucam" (cam_name i) sec /\ cam_section sec (cams i)) ->
  forall c, exists c', gives (load_cams P d c l) c' true.
Proof.
  intros Q F. induction l as [|i l IH]; intros H c; [exists c; reflexivity|]. destruct (H i (or_introl eq_refl)) as (sec & Sc & Kc). cbn [load_cams].
  assert (T1 : exists c1, gives (load_cam P d c i) c1 true).
  { unfold load_cam. assert (T0 : exists dt, gives (if Nat.eqb i 0 then ext_real P "relative_config_imucam" (cam_name i) "timeshift_cam_imu" (ca_dt c) false else mret (ca_dt c)) dt true).
    { destruct (Nat.eqb i 0); [|eexists; reflexivity]. destruct (opt_gives (oc_real (ps_oc P)) sec "timeshift_cam_imu" (ca_dt c)) as (dt & Gd). exists dt.
      apply (ext_gives P _ _ _ _ sec); auto. apply F. }
    destruct T0 as (dt & Gd). eexists. eapply bind_true; [exact Gd|]. eapply bind_true; [eapply read_cam_file; eauto|]. reflexivity. }
  destruct T1 as (c1 & G1). destruct (IH (fun j Hj => H j (or_intror Hj)) c1) as (c2 & G2). exists c2. eapply bind_true; eauto.
Qed.
Lemma masks_total P c down cams l : quiet P -> faithful (ps_oc P) ->
  (forall i, In i l -> mask_file P i (size_at down (cams i)) /\ exists o, alook (ca_cams c) i = Some o /\ (cc_w o, cc_h o) = size_at down (cams i)) ->
  exists ms, gives (load_masks P c l) ms true.
Proof.
  intros Q F. induction l as [|i l IH]; intros H; [eexists; reflexivity|]. destruct (H i (or_introl eq_refl)) as ((d & path & D & Sp & Hm) & o & Ho & Eo). cbn [load_masks].
  assert (T1 : exists s, gives (load_mask P c i) s true).
  { exists (cc_w o, cc_h o). unfold load_mask. eapply bind_true; [eapply config_says; [exact Q|exact Sp|intros root Cr; eapply parse_gives; [exact Cr|apply F]]|].
    rewrite (folder_thm P d D), append_assoc, Hm, <- Eo. eapply bind_true; [apply lift_gives; rewrite Ho; reflexivity|]. now rewrite !Z.eqb_refl. }
  destruct T1 as (s & G1). destruct (IH (fun j Hj => H j (or_intror Hj))) as (ms & G2). eexists. eapply bind_true; [exact G1|]. eapply bind_true; [exact G2|]. reflexivity.
Qed.
Lemma complete_thm P n down um ci cg g cams f : complete P n down um ci cg g cams f ->
  exists v, load_all P true = Ok (v, true) /\ vc_n v = Z.of_nat n /\ vc_down v = down /\ vc_grav v = g /\ vc_ci v = ci /\ vc_cg v = cg /\
    map fst (vc_masks v) = if um then seq 0 n else [].
Proof.
  intros (Q & F & (xi & Si & Bi) & (xg & Sg & Bg) & (xd & Sd & Bd) & (xm & Sm & Bm) & Sn & (xv & Sv & Nv) & Hc & Hm & (sec & Sc & Kf) & Hmod).
  assert (Gi : forall x, gives (cfg_bool P "calib_imu_intrinsics" x true) ci true) by (intros; eapply cbool_gives; eauto).
  assert (Gg : forall x, gives (cfg_bool P "calib_imu_g_sensitivity" x true) cg true) by (intros; eapply cbool_gives; eauto).
  assert (Gd : forall x, gives (cfg_bool P "downsample_cameras" x true) down true) by (intros; eapply cbool_gives; eauto).
  assert (Gm : forall x, gives (cfg_bool P "use_mask" x true) um true) by (intros; eapply cbool_gives; eauto).
  assert (Gn : forall x, gives (cfg_int P "max_cameras" x true) (Z.of_nat n) true).
  { intros. eapply config_says; eauto. intros root C. eapply parse_gives; [exact C|apply F]. }
  assert (Gv : forall x, gives (cfg_real P "gravity_mag" x true) g true).
  { intros. eapply config_says; eauto. intros root C. eapply parse_gives; [exact C|apply F; exact Nv]. }
  assert (Hc' : forall i, In i (seq 0 n) -> exists sec0, section P "relative_config_imucam" (cam_name i) sec0 /\ cam_section sec0 (cams i)).
  { intros i Hi. apply in_seq in Hi. apply Hc. lia. }
  destruct (cams_total P down (seq 0 n) cams Q F Hc' (mkCal 0 [] [])) as (c & Gc).
  destruct (fresh_cams _ _ _ _ _ Gc) as (Fc & _ & L1 & L2).
  assert (Ck : gives (check_sizes (Z.of_nat n) c) tt true). { unfold check_sizes. rewrite L1, L2, Z.eqb_refl. reflexivity. }
  assert (Ms : exists ms, gives (if um then load_masks P c (seq 0 n) else mret []) ms true).
  { destruct um; [|eexists; reflexivity]. apply (masks_total P c down cams); auto. intros i Hi. apply in_seq in Hi. split; [apply Hm; auto; lia|].
    destruct (Fc i) as (r & br & R1 & _ & R2 & _); [lia|]. destruct (Hc i) as (s0 & Sc0 & K0); [lia|].
    destruct (gives_fun _ _ _ _ _ R1 (read_cam_file P down i s0 (cams i) Q F Sc0 K0)) as (-> & _).
    eexists. split; [exact R2|]. unfold size_at, half; simpl; destruct down; reflexivity. }
  destruct Ms as (ms & Gms).
  assert (Go : gives (load_options P 1%Z) (model_of f, ci, cg, Z.of_nat n) true).
  { unfold load_options. eapply bind_true; [apply Gi|]. eapply bind_true; [apply Gg|]. eapply bind_true; [apply Gn|].
    eapply bind_true; [eapply model_text; eauto|]. unfold model_of. destruct Hmod as [(E & -> & ->)|[E|E]]; rewrite E; reflexivity. }
  assert (Gini : gives (load_init P) (mkIc g (Z.of_nat n) down c) true).
  { unfold load_init. eapply bind_true; [apply Gv|]. eapply bind_true; [apply Gn|]. eapply bind_true; [apply Gd|].
    eapply bind_true; [rewrite Nat2Z.id; exact Gc|]. eapply bind_true; [exact Ck|]. reflexivity. }
  eexists (mkVc (model_of f) ci cg (Z.of_nat n) _ down g _ ms _). split.
  - match goal with |- load_all P true = Ok (?x, true) => change (gives (load_all P) x true) end. unfold load_all. eapply bind_true; [exact Go|]. eapply bind_true; [exact Gini|]. eapply bind_true; [apply Gd|].
    eapply bind_true; [apply Gv|]. cbn [snd fst]. rewrite Nat2Z.id. eapply bind_true; [exact Gc|]. eapply bind_true; [apply Gm|].
    eapply bind_true; [exact Gms|]. eapply bind_true; [eapply load_imu_file; eauto|]. eapply bind_true; [exact Ck|]. reflexivity.
  - cbn [vc_n vc_down vc_grav vc_ci vc_cg vc_masks]. repeat split; auto. destruct um; [now apply masks_inv in Gms|]. apply gives_ret in Gms. destruct Gms as (-> & _). reflexivity.
Qed.

(** ** exits *)
Lemma cfg_bool_ok P nm x k : exists v k', cfg_bool P nm x true k = Ok (v, k').
Proof.
  unfold cfg_bool, parse_config. destruct (ros P _ nm); [eexists _, _; reflexivity|]. destruct (ps_cfg P); [|eexists _, _; reflexivity].
  unfold parse_bool, missing, mret. destruct (node_found n nm); simpl; [|eexists _, _; reflexivity]. destruct (child n nm) as [c|]; [|eexists _, _; reflexivity].
  cbv zeta. repeat match goal with |- context [match ?x with _ => _ end] => destruct x end; eexists _, _; reflexivity.
Qed.
Lemma cfg_int_ok P nm x k : exists v k', cfg_int P nm x true k = Ok (v, k').
Proof.
  unfold cfg_int, parse_config. destruct (ros P _ nm); [eexists _, _; reflexivity|]. destruct (ps_cfg P); [|eexists _, _; reflexivity].
  unfold parse, missing, mret. destruct (node_found n nm); simpl; [|eexists _, _; reflexivity]. destruct (child n nm) as [c|]; [|eexists _, _; reflexivity].
  destruct (oc_int (ps_oc P) c); eexists _, _; reflexivity.
Qed.
Lemma opts_exit P n0 k : (forall k', ext_str P "relative_config_imu" "imu0" "model" "kalibr"%string true k' = Exit) -> load_options P n0 k = Exit.
Proof.
  intros H. unfold load_options, mbind. destruct (cfg_bool_ok P "calib_imu_intrinsics" false k) as (a & k1 & ->). simpl.
  destruct (cfg_bool_ok P "calib_imu_g_sensitivity" false k1) as (b & k2 & ->). simpl.
  destruct (cfg_int_ok P "max_cameras" n0 k2) as (c & k3 & ->). simpl. rewrite H. reflexivity.
Qed.
Lemma exit_file P k root : quiet P -> ps_cfg P = Some root -> faithful (ps_oc P) ->
  (child root "relative_config_imu" = None \/ exists path, child root "relative_config_imu" = Some (NStr path) /\ ps_open P (config_folder P ++ path) = None) ->
  load_all P k = Exit.
Proof.
  intros Q C F H. unfold load_all, mbind. rewrite opts_exit; auto. intros k'. unfold ext_str, parse_external, ext_yaml. rewrite (ros_none P _ _ (Q _)), C.
  destruct H as [H|(path & H & O)].
  - rewrite (child_none _ _ H). reflexivity.
  - rewrite (child_some _ _ _ H), H. unfold mbind, lift. destruct F as (_ & _ & -> & _). simpl. rewrite O. reflexivity.
Qed.
Lemma exit_model P k sec f n ci cg : quiet P -> faithful (ps_oc P) -> section P "relative_config_imu" "imu0" sec -> imu_section sec f ->
  says P "calib_imu_intrinsics" ci -> says P "calib_imu_g_sensitivity" cg -> says P "max_cameras" (NInt n) -> forall bi bg, bool_node ci bi -> bool_node cg bg ->
  ~ In (if_model f) ["kalibr"; "calibrated"; "rpng"]%string \/ (if_model f = "calibrated"%string /\ (bi = true \/ bg = true)) ->
  load_all P k = Exit.
Proof.
  intros Q F Sc Kf Si Sg Sn bi bg Bi Bg H. unfold load_all, mbind at 1.
  assert (X : load_options P 1%Z true = Exit).
  { unfold load_options, mbind. rewrite (cbool_gives P _ ci bi false Q F Si Bi). simpl. rewrite (cbool_gives P _ cg bg false Q F Sg Bg). simpl.
    assert (Gn : gives (cfg_int P "max_cameras" 1%Z true) n true). { eapply config_says; eauto. intros root C. eapply parse_gives; [exact C|apply F]. }
    rewrite Gn. simpl. rewrite (model_text P sec f _ Q F Sc Kf). simpl.
    destruct H as [H|(-> & H)].
    - destruct (String.eqb_spec (if_model f) "kalibr"); [exfalso; apply H; simpl; auto|]. destruct (String.eqb_spec (if_model f) "calibrated"); [exfalso; apply H; simpl; auto|].
      destruct (String.eqb_spec (if_model f) "rpng"); [exfalso; apply H; simpl; auto|]. reflexivity.
    - simpl. replace (bi || bg)%bool with true; [reflexivity|]. destruct H as [-> | ->]; simpl; auto. now rewrite orb_true_r. }
  rewrite (ind_opts P 1%Z k), X. reflexivity.
Qed.

(** ** sources *)
Lemma ros_thm P nm n v x r k : ps_ros P nm = Some n -> oc_real (ps_oc P) n = Some v -> cfg_real P nm x r k = Ok (v, k).
Proof. intros E F. unfold cfg_real, parse_config, ros. now rewrite E, F. Qed.
Lemma ros_external_thm P ext s nm n v x r k : ps_ros P (s ++ "_" ++ nm) = Some n -> oc_reals (ps_oc P) n = Some v -> ext_reals P ext s nm x r k = Ok (v, k).
Proof. intros E F. unfold ext_reals, parse_external, ros. now rewrite E, F. Qed.
Lemma default_thm P nm root x r k : quiet P -> ps_cfg P = Some root -> child root nm = None -> cfg_real P nm x r k = Ok (x, if r then false else k).
Proof. intros Q E C. unfold cfg_real, parse_config, parse. rewrite (ros_none P _ _ (Q nm)), E, (child_none _ _ C). reflexivity. Qed.
Lemma value_thm P nm n v x r k : quiet P -> faithful (ps_oc P) -> says P nm n -> num n = Some v -> cfg_real P nm x r k = Ok (v, k).
Proof.
  intros Q F Sn Nn. assert (G : gives (cfg_real P nm x r) v true). { eapply config_says; eauto. intros root C. eapply parse_gives; [exact C|now apply F]. }
  rewrite (gives_at _ k _ _ (ind_creal P nm x r) G). now rewrite andb_true_r.
Qed.
Lemma bool_thm P nm n b x k : quiet P -> faithful (ps_oc P) -> says P nm n -> bool_node n b -> cfg_bool P nm x true k = Ok (b, k).
Proof. intros Q F Sn Bn. rewrite (gives_at _ k _ _ (ind_cbool P nm x true) (cbool_gives P nm n b x Q F Sn Bn)). now rewrite andb_true_r. Qed.
Lemma bool_only_thm P nm s b x r : quiet P -> faithful (ps_oc P) -> says P nm (NStr s) -> cfg_bool P nm x r true = Ok (b, true) ->
  exists u t, s = (u ++ t)%string /\ bool_text b u /\ comment t.
Proof.
  intros Q F (root & E & C) G. unfold cfg_bool, parse_config in G. rewrite (ros_none P _ _ (Q nm)), E in G.
  eapply bool_only; [apply F|exact C|exact G].
Qed.
