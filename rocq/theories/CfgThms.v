(** The theorems about the configuration loading. *)
From Coq Require Import Reals List Arith Bool ZArith String Ascii Lia Lra.
From Verif Require Import Outcome RBool GeoModel GeoSpec GeoProofs Lin DbModel DbProofs FeatModel CamModel PropModel PropSpec PropThms DescProofs CfgModel CfgSpec CfgProofs.
Import ListNotations.
Open Scope R_scope.

(** ** the cameras of the file *)
Lemma rot_inv3 A t B s : is_rot A -> is_rot B -> (forall x, v3add (m3v A (v3add (m3v B x) s)) t = x) ->
  Inv_se3 (SE3 A t) = SE3 B s.
Proof.
  intros (A1 & A2 & _) (B1 & B2 & _) H.
  assert (Z : v3add (m3v A s) t = v3zero).
  { rewrite <- (H v3zero). f_equal. f_equal. apply v3_ext; simpl; ring. }
  assert (I1 : m3mul A B = m3id).
  { assert (K : forall x, m3v A (m3v B x) = x).
    { intros x. rewrite <- (H x) at 2. transitivity (v3add (m3v A (m3v B x)) (v3add (m3v A s) t)); [rewrite Z|]; apply v3_ext; simpl; ring. }
    pose proof (K (V3 1 0 0)) as K1. pose proof (K (V3 0 1 0)) as K2. pose proof (K (V3 0 0 1)) as K3.
    injection K1; injection K2; injection K3; intros. apply m3_ext; simpl; lra. }
  assert (E : m3tr A = B). { rewrite <- (m3mul_id_r (m3tr A)), <- I1, <- m3mul_assoc, A2. apply m3mul_id_l. }
  assert (T : t = v3neg (m3v A s)). { injection Z; intros. apply v3_ext; simpl; lra. }
  unfold Inv_se3. cbn [seR set_]. rewrite E. f_equal. rewrite T, <- E.
  transitivity (m3v (m3mul (m3tr A) A) s); [rewrite m3v_mul; apply v3_ext; simpl; ring|]. rewrite A2. apply m3v_id.
Qed.
Lemma m4_read O sec c x r : (forall m v, num m = Some v -> oc_real O m = Some v) -> cam_section sec c -> gives (parse_m4 O sec "T_imu_cam" x r) (cf_T c) true.
Proof.
  intros F (_ & _ & _ & _ & Rt & [(n & A & C & H & E)|(C0 & n & A & C & H & Ra & E)]); destruct (matrix_read O n A 4 F H) as (B & EB & HB); unfold parse_m4, gives.
  - rewrite (child_some _ _ _ C). cbv zeta. simpl. rewrite (child_some _ _ _ C), C. simpl. rewrite EB. simpl. unfold mret. now rewrite (to_se3_ext A B HB), E.
  - rewrite (child_none _ _ C0). cbv zeta. simpl. rewrite (child_some _ _ _ C), C. simpl. rewrite EB. simpl. unfold mret. rewrite (to_se3_ext A B HB).
    destruct (pose_of A) as [RA tA]. cbn [seR set_] in *. rewrite (rot_inv3 RA tA (seR (cf_T c)) (set_ (cf_T c)) Ra Rt E). now destruct (cf_T c).
Qed.
Definition scaled (down : bool) (c : camfile) : vec :=
  match cf_f c, cf_d c with (a0, a1, a2, a3), (b0, b1, b2, b3) =>
    let d := if down then 2 else 1 in row8 (a0 / d) (a1 / d) (a2 / d) (a3 / d) b0 b1 b2 b3 end.
Definition cam_of (down : bool) (c : camfile) : ccam * (q4 * v3) :=
  (mkCc (file_kind c) (half down (cf_w c)) (half down (cf_h c)) (scaled down c),
   (rot_2_quat (m3tr (seR (cf_T c))), v3neg (m3v (m3tr (seR (cf_T c))) (set_ (cf_T c))))).
Lemma eqb_dec (A : Type) s t (a b : A) : (if String.eqb s t then a else b) = if string_dec s t then a else b.
Proof. destruct (String.eqb_spec s t), (string_dec s t); congruence. Qed.
Lemma ext_gives {T} P (rr : node -> option T) pf ext s sec nm x r v b : quiet P -> (forall t, oc_str (ps_oc P) (NStr t) = Some t) ->
  section P ext s sec -> gives (pf sec nm x r) v b -> gives (parse_external P rr pf ext s nm x r) v b.
Proof. intros Q F Sc G. unfold parse_external. rewrite (ros_none P rr _ (Q _)). apply (yaml_section P pf ext s sec); auto. Qed.
Lemma bind_true {A B} (m : M A) (f : A -> M B) a x c : gives m a true -> gives (f a) x c -> gives (mbind m f) x c.
Proof. intros G H. unfold gives, mbind. rewrite G. exact H. Qed.
Lemma lift_gives {A} (o : outcome A) a : o = Ok a -> gives (lift o) a true.
Proof. intros ->. reflexivity. Qed.
Lemma read_cam_file P down i sec c : quiet P -> faithful (ps_oc P) -> section P "relative_config_imucam" (cam_name i) sec -> cam_section sec c ->
  gives (read_cam P down i) (cam_of down c) true.
Proof.
  intros Q (Fi & Fr & Fs & Frs & Fis) Sc K. pose proof (m4_read (ps_oc P) sec c (SE3 m3id v3zero) true Fr K) as G4.
  destruct K as (Km & (l1 & C1 & L1) & (l2 & C2 & L2) & Kr & _ & _).
  unfold read_cam. cbv zeta. unfold ext_str, ext_reals, ext_ints, external_m4.
  eapply bind_true. { apply (ext_gives P _ _ _ _ sec); auto. eapply parse_gives; [exact Km|apply Fs]. }
  eapply bind_true. { apply (ext_gives P _ _ _ _ sec); auto. eapply parse_gives; [exact C1|apply Frs, L1]. }
  eapply bind_true. { apply (ext_gives P _ _ _ _ sec); auto. eapply parse_gives; [exact C2|apply Frs, L2]. }
  eapply (bind_true _ _ (scaled down c)). { apply lift_gives. unfold calib8, scaled. destruct (cf_f c) as [[[a0 a1] a2] a3] eqn:Ef, (cf_d c) as [[[b0 b1] b2] b3] eqn:Ed. simpl. reflexivity. }
  eapply bind_true. { apply (ext_gives P _ _ _ _ sec); auto. eapply parse_gives; [exact Kr|]. apply (Fis [cf_w c; cf_h c]). }
  eapply bind_true. { apply lift_gives. reflexivity. }
  eapply bind_true. { apply lift_gives. reflexivity. }
  eapply bind_true. { rewrite (ros_none P _ _ (Q _)). eapply yaml_section; eauto. }
  unfold gives, mret, cam_of, file_kind. rewrite eqb_dec. reflexivity.
Qed.

Lemma aset_len {A} (m : amap A) k v : alook m k = None -> List.length (aset m k v) = S (List.length m).
Proof. induction m as [|[a b] m IH]; simpl; auto. destruct (Nat.eqb k a); [discriminate|]. intros H. simpl. now rewrite IH. Qed.
Lemma ind_dt P i d : indep (if Nat.eqb i 0 then ext_real P "relative_config_imucam" (cam_name i) "timeshift_cam_imu" d false else mret d).
Proof. ind. Qed.
Lemma cams_inv P d l : forall c c' b, NoDup l -> (forall i, In i l -> alook (ca_cams c) i = None /\ alook (ca_ext c) i = None) ->
  gives (load_cams P d c l) c' b ->
  (forall i, In i l -> exists r br, gives (read_cam P d i) r br /\ (b = true -> br = true) /\ alook (ca_cams c') i = Some (fst r) /\ alook (ca_ext c') i = Some (snd r)) /\
  (forall i, ~ In i l -> alook (ca_cams c') i = alook (ca_cams c) i /\ alook (ca_ext c') i = alook (ca_ext c) i) /\
  List.length (ca_cams c') = (List.length (ca_cams c) + List.length l)%nat /\ List.length (ca_ext c') = (List.length (ca_ext c) + List.length l)%nat.
Proof.
  induction l as [|i l IH]; intros c c' b N H G.
  - apply gives_ret in G. destruct G as (-> & ->). repeat split; simpl; intros; try tauto; lia.
  - cbn [load_cams] in G. apply gives_bind in G; [|apply ind_cam|intros; apply ind_cams]. destruct G as (c1 & b1 & b2 & G1 & G2 & ->).
    inversion N as [|? ? Ni Nl]; subst. unfold load_cam in G1. apply gives_bind in G1; [|apply ind_dt|cbv zeta; ind].
    destruct G1 as (dt & x1 & x2 & _ & G1 & ->). apply gives_bind in G1; [|apply ind_read|cbv zeta; ind].
    destruct G1 as (r & y1 & y2 & Gr & G1 & ->). apply gives_ret in G1. destruct G1 as (-> & ->).
    destruct (H i (or_introl eq_refl)) as (H1 & H2). rewrite H1, H2 in G2.
    assert (K : forall j, In j l -> alook (aset (ca_cams c) i (fst r)) j = None /\ alook (aset (ca_ext c) i (snd r)) j = None).
    { intros j Hj. rewrite !alook_aset. destruct (H j (or_intror Hj)) as (Q1 & Q2). destruct (Nat.eqb_spec j i); subst; [contradiction|auto]. }
    destruct (IH (mkCal dt (aset (ca_cams c) i (fst r)) (aset (ca_ext c) i (snd r))) _ _ Nl K G2) as (I1 & I2 & I3 & I4). simpl in I2, I3, I4. repeat split.
    + intros j [<-|Hj].
      * exists r, y1. split; [exact Gr|]. split; [intros E; repeat (apply andb_true_iff in E; destruct E as (E & ?)); destruct y1, x1; simpl in *; congruence|].
        destruct (I2 i Ni) as (-> & ->). rewrite !alook_aset, Nat.eqb_refl. auto.
      * destruct (I1 j Hj) as (r' & br & Q1 & Q2 & Q3). exists r', br. split; auto. split; auto.
        intros E. apply Q2. apply andb_true_iff in E. tauto.
    + destruct (I2 i0) as (-> & _); [intro; apply H0; now right|]. rewrite alook_aset. destruct (Nat.eqb_spec i0 i); auto. subst. exfalso; apply H0; now left.
    + destruct (I2 i0) as (_ & ->); [intro; apply H0; now right|]. rewrite alook_aset. destruct (Nat.eqb_spec i0 i); auto. subst. exfalso; apply H0; now left.
    + rewrite I3, aset_len by auto. simpl. lia.
    + rewrite I4, aset_len by auto. simpl. lia.
Qed.
Lemma fresh_cams P d n c' b : gives (load_cams P d (mkCal 0 [] []) (seq 0 n)) c' b ->
  (forall i, (i < n)%nat -> exists r br, gives (read_cam P d i) r br /\ (b = true -> br = true) /\ alook (ca_cams c') i = Some (fst r) /\ alook (ca_ext c') i = Some (snd r)) /\
  (forall i, (n <= i)%nat -> alook (ca_cams c') i = None /\ alook (ca_ext c') i = None) /\
  List.length (ca_cams c') = n /\ List.length (ca_ext c') = n.
Proof.
  intros G. destruct (cams_inv P d (seq 0 n) (mkCal 0 [] []) _ _ (seq_NoDup n 0) (fun _ _ => conj eq_refl eq_refl) G) as (A & B & C & D).
  repeat split.
  - intros i Hi. apply A. apply in_seq. lia.
  - destruct (B i) as (-> & _); auto. rewrite in_seq; lia.
  - destruct (B i) as (_ & ->); auto. rewrite in_seq; lia.
  - rewrite C, seq_length. reflexivity.
  - rewrite D, seq_length. reflexivity.
Qed.

(** ** taking load_all apart *)
Record parts (P : parser) (v : vcfg) (b : bool) : Prop :=
  { pt_n : exists b1, gives (cfg_int P "max_cameras" 1%Z true) (vc_n v) b1 /\ (b = true -> b1 = true);
    pt_ci : exists b1, gives (cfg_bool P "calib_imu_intrinsics" false true) (vc_ci v) b1 /\ (b = true -> b1 = true);
    pt_cg : exists b1, gives (cfg_bool P "calib_imu_g_sensitivity" false true) (vc_cg v) b1 /\ (b = true -> b1 = true);
    pt_model : exists b1 s, gives (ext_str P "relative_config_imu" "imu0" "model" "kalibr"%string true) s b1 /\ (b = true -> b1 = true) /\
       ((s = "rpng"%string /\ vc_model v = RPNG) \/ ((s = "kalibr" \/ s = "calibrated")%string /\ vc_model v = KALIBR)) /\
       (s = "calibrated"%string -> vc_ci v = false /\ vc_cg v = false);
    pt_init : exists b1, gives (load_init P) (vc_init v) b1 /\ (b = true -> b1 = true);
    pt_down : exists b1, gives (cfg_bool P "downsample_cameras" false true) (vc_down v) b1 /\ (b = true -> b1 = true);
    pt_grav : exists b1, gives (cfg_real P "gravity_mag" (981 / 100) true) (vc_grav v) b1 /\ (b = true -> b1 = true);
    pt_cal : exists b1, gives (load_cams P (vc_down v) (mkCal 0 [] []) (seq 0 (Z.to_nat (vc_n v)))) (vc_cal v) b1 /\ (b = true -> b1 = true);
    pt_masks : exists b1 um, gives (cfg_bool P "use_mask" false true) um b1 /\ (b = true -> b1 = true) /\
       if um then exists b2, gives (load_masks P (vc_cal v) (seq 0 (Z.to_nat (vc_n v)))) (vc_masks v) b2 /\ (b = true -> b2 = true) else vc_masks v = [];
    pt_imu : exists b1, gives (load_imu P (vc_model v)) (vc_imu v) b1 /\ (b = true -> b1 = true);
    pt_size : vc_n v = Z.of_nat (List.length (ca_cams (vc_cal v))) /\ vc_n v = Z.of_nat (List.length (ca_ext (vc_cal v))) }.
Ltac gb H a b c G := apply gives_bind in H; [destruct H as (a & b & c & G & H & ->)|solve [intros; ind]|solve [intros; ind]].
Lemma and_t a b : (a && b)%bool = true -> a = true /\ b = true. Proof. apply andb_true_iff. Qed.
Ltac tb2 := intros; repeat match goal with H : (_ && _)%bool = true |- _ => apply and_t in H; destruct H end; subst; auto.
Lemma check_ok n c u k : gives (check_sizes n c) u k -> n = Z.of_nat (List.length (ca_cams c)) /\ n = Z.of_nat (List.length (ca_ext c)).
Proof.
  unfold check_sizes. destruct (Z.eqb_spec n (Z.of_nat (List.length (ca_cams c)))); simpl; [|intros G; apply gives_lift in G; destruct G; discriminate].
  destruct (Z.eqb_spec n (Z.of_nat (List.length (ca_ext c)))); simpl; [auto|intros G; apply gives_lift in G; destruct G; discriminate].
Qed.
Lemma take_apart P v b : gives (load_all P) v b -> parts P v b.
Proof.
  intros G. unfold load_all in G. gb G qo fb1 kc1 Go. gb G qini fb2 kc2 Gi. gb G qdown fb3 kc3 Gd. gb G qg fb4 kc4 Gg. gb G qc fb5 kc5 Gc.
  gb G qum fb6 kc6 Gu. gb G qms fb7 kc7 Gm. gb G qim fb8 kc8 Gim. gb G qu fb9 kc9 Gs. apply gives_ret in G. destruct G as (-> & ->).
  apply check_ok in Gs. unfold load_options in Go. gb Go qci fd1 ke1 G1. gb Go qcg fd2 ke2 G2. gb Go qn fd3 ke3 G3. gb Go qs fd4 ke4 G4. gb Go qm fd5 ke5 G5.
  assert (X : qo = (qm, qci, qcg, qn) /\ (qs = "calibrated"%string -> qci = false /\ qcg = false)).
  { destruct (String.eqb_spec qs "calibrated") as [->|Ns]; simpl in Go; [destruct (qci || qcg)%bool eqn:Ec; simpl in Go|].
    - apply gives_lift in Go. destruct Go; discriminate.
    - apply gives_ret in Go. destruct Go as (-> & _). split; auto. intros _. now apply orb_false_iff in Ec.
    - apply gives_ret in Go. destruct Go as (-> & _). split; auto. intros; contradiction. }
  destruct X as (-> & X). cbn [fst snd] in *.
  constructor; cbn [vc_model vc_ci vc_cg vc_n vc_init vc_down vc_grav vc_cal vc_masks vc_imu]; auto;
    try (eexists; split; [eassumption|tb2]; fail).
  - exists fd4, qs. split; auto. split; [tb2|]. split; auto.
    destruct (String.eqb_spec qs "kalibr") as [->|N1]; simpl in G5; [apply gives_ret in G5; right; intuition|].
    destruct (String.eqb_spec qs "calibrated") as [->|N2]; simpl in G5; [apply gives_ret in G5; right; intuition|].
    destruct (String.eqb_spec qs "rpng") as [->|N3]; [apply gives_ret in G5; left; intuition|].
    apply gives_lift in G5. destruct G5; discriminate.
  - exists fb6, qum. split; auto. split; [tb2|]. destruct qum; [exists fb7; split; [auto|tb2]|]. now apply gives_ret in Gm.
Qed.
