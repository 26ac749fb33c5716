(** Concrete cases for C94 and C95. *)
From Coq Require Import Reals List Arith Bool Lia Lra.
From Verif Require Import RBool Outcome GeoModel GeoSpec GeoProofs DbModel DbProofs FeatModel FeatSpec FeatProofs FeatThms FeatEx RetriModel RetriSpec RetriProofs RetriThms RetriShow.
Import ListNotations.
Open Scope R_scope.

(** the body moves along -x; camera 0 sees feature 7 at (0, 0, 2) and landmark 9, anchored at time 0 *)
Definition exr_in (k : nat) (cams : list nat) : rin :=
  mkRin (INR k) cams (map (fun c => (c, [(INR k / 2, 0); (INR k / 5, 0)])) cams) (map (fun c => (c, [7; 9]%nat)) cams)
    (fun t => Some (m3id, V3 (- t) 0 0)) (fun _ => Some (m3id, v3zero)) (fun _ => Some (fun x => x)) 640 480 [(9%nat, mkSl 9 (V3 0 0 5) true (Some 0%nat) 0)].
Definition exr_sv (A : m3) : R * R := (1, m3det A).
Definition exr_P : v3 := V3 0 0 2.
Definition exr_view (k : nat) : meas := (m3id, v3add (V3 (- INR k) 0 0) (m3v (m3tr m3id) (m3v (m3tr m3id) (v3neg v3zero))), (INR k / 2, 0)).

Lemma exr_id : m3mul m3id m3id = m3id. Proof. apply m3mul_id_l. Qed.
Lemma exr_rots k cams : rots (exr_in k cams).
Proof. split; cbn; intros ? M p E; injection E as <- _; apply is_rot_id. Qed.
Lemma exr_keyed k cams : keyed (exr_in k cams).
Proof. split; cbn; [repeat constructor; intros []|]. intros k0 f [E|[]]. injection E as <- <-. reflexivity. Qed.
Lemma exr_complete k cams : complete (exr_in k cams).
Proof.
  unfold complete. cbn. split; [discriminate|]. split; [discriminate|]. split.
  - intros c Hc. split; [discriminate|]. split; [discriminate|]. exists [(INR k / 2, 0); (INR k / 5, 0)], [7; 9]%nat.
    split; [|split; [|reflexivity]]; clear -Hc; (induction cams as [|d l IH]; [destruct Hc|]; destruct Hc as [->|Hc]; cbn; rewrite ?Nat.eqb_refl; auto; destruct (Nat.eqb c d); auto).
  - intros k0 f [E|[]] _. injection E as <- <-. exists 0%nat. cbn. repeat split; discriminate.
Qed.
Lemma exr_views k : views (exr_in k [0%nat]) 7 = [exr_view k].
Proof. unfold views, exr_view. cbn [exr_in ri_slam alook Nat.eqb ri_cams flat_map]. unfold cam_views. cbn [exr_in ri_clone ri_calib ri_obs ri_ids ri_und map alook Nat.eqb combine filter fst snd app eye]. rewrite exr_id. reflexivity. Qed.
Lemma exr_sees k : appears exr_P (exr_view k).
Proof. unfold appears, exr_view, exr_P. cbn. repeat split; try lra; field; lra. Qed.
Lemma exr_run solve svals o : forall l old, (forall i, In i l -> complete i) -> exists s, retri_run solve svals o old l = Ok s.
Proof.
  induction l as [|i l IH]; intros old H; [eexists; reflexivity|]. cbn [retri_run]. destruct (defined_thm solve svals o old i (H i (or_introl eq_refl))) as (x & ->). cbn [obind]. apply IH. intros j Hj. apply H. right. exact Hj.
Qed.
Definition exr_l : list rin := [exr_in 0 [0%nat]; exr_in 1 [0%nat]; exr_in 2 [0%nat]].
Lemma exr_kept : kept 7 (rev exr_l) = [exr_view 2; exr_view 1; exr_view 0].
Proof. unfold exr_l. cbn [rev app kept]. rewrite !exr_views. reflexivity. Qed.
Lemma exr_normal : fst (normal (exr_view 3 :: kept 7 (rev exr_l))) = M3 (1 + 4 / 5 + 1 / 2 + 4 / 13) 0 (- (2 / 5) - 1 / 2 - 6 / 13) 0 4 0 (- (2 / 5) - 1 / 2 - 6 / 13) 0 (1 / 5 + 1 / 2 + 9 / 13).
Proof. rewrite exr_kept. unfold normal, exr_view, across, ray, centre, v3dot. apply m3_ext; cbn; field. Qed.
Lemma exr_det : m3det (fst (normal (exr_view 3 :: kept 7 (rev exr_l)))) = 462 / 65.
Proof. rewrite exr_normal. unfold m3det. cbn. field. Qed.
Lemma exr_case : exists s x, retri_run cramer exr_sv (dflt 1) [] exr_l = Ok s /\ retriangulate cramer exr_sv (dflt 1) s (exr_in 3 [0%nat]) = Ok x /\
  alook (ro_pos x) 7 = Some exr_P /\ alook (ro_uvd x) 7 = Some (V3 (3 / 2) 0 2) /\ alook (ro_sys x) 9 = None /\ exists P, alook (ro_pos x) 9 = Some P /\ vz P = 5.
Proof.
  assert (Hc : forall i, In i exr_l -> complete i) by (intros i Hi; cbn in Hi; intuition (subst; apply exr_complete)).
  destruct (exr_run cramer exr_sv (dflt 1) exr_l [] Hc) as (s & Es). destruct (defined_thm cramer exr_sv (dflt 1) s (exr_in 3 [0%nat]) (exr_complete 3 _)) as (x & Ex).
  assert (Hk : forall j, In j (exr_in 3 [0%nat] :: exr_l) -> keyed j /\ rots j) by (intros i Hi; cbn in Hi; intuition (subst; auto using exr_keyed, exr_rots)).
  exists s, x. split; [exact Es|]. split; [exact Ex|].
  assert (P7 : alook (ro_pos x) 7 = Some exr_P).
  { apply (recovered_thm cramer exr_sv (dflt 1) exr_l s (exr_in 3 [0%nat]) x 7 exr_P (exr_view 3) [] Es Hk cramer_solves).
    - intros A. reflexivity.
    - exact Ex.
    - apply exr_views.
    - rewrite exr_kept. cbn. lia.
    - rewrite exr_views, exr_kept. cbn [app In]. intros m Hm. intuition (subst; apply exr_sees).
    - cbn [last]. rewrite exr_det. lra.
    - cbn [last]. unfold exr_sv. cbn [fst snd dflt fo_cond]. rewrite exr_det. rewrite Rabs_right; lra.
    - cbn. lra. }
  split; [exact P7|]. split.
  - apply (uvd_thm _ _ _ _ _ _ 7 _ Ex). exists exr_P, (INR 3 / 2, 0), (m3id, V3 (- INR 3) 0 0), (m3id, v3zero). split; [exact P7|]. split; [reflexivity|]. split; [reflexivity|]. split; [reflexivity|].
    cbv zeta. cbn [fst snd exr_in ri_w ri_h]. assert (I3 : INR 3 = 3) by (cbn; lra). assert (W : INR 640 = 640 /\ INR 480 = 480) by (rewrite !INR_IZR_INZ; cbn; lra). destruct W as (-> & ->). rewrite I3. split; [apply v3_ext; cbn; lra|]. cbn. lra.
  - split.
    + destruct (call_id cramer exr_sv (dflt 1) s (exr_in 3 [0%nat]) x 9 Ex (exr_keyed 3 _)) as (-> & _). reflexivity.
    + destruct (landmark_thm cramer exr_sv (dflt 1) s (exr_in 3 [0%nat]) x 9 (mkSl 9 (V3 0 0 5) true (Some 0%nat) 0) Ex (exr_keyed 3 _) (exr_rots 3 _) eq_refl) as (P & H1 & H2). exists P. split; [exact H1|].
      unfold stands in H2. cbn [sl_rel] in H2. destruct H2 as (c & C & B & H2 & H3 & H4 & H5). cbn in H2, H3, H4. injection H2 as <-. injection H3 as <-. injection H4 as <-. cbn in H5. injection H5 as _ _ H5. lra.
Qed.
(** two cameras that see the same feature in every message *)
Definition exr_st : list rin := [exr_in 0 [0; 1]%nat; exr_in 1 [0; 1]%nat].
Lemma exr_stereo solve svals o : exists s A b n, retri_run solve svals o [] exr_st = Ok s /\ (forall i, In i exr_st -> keyed i /\ rots i /\ complete i) /\
  alook s 7 = Some (A, b, n) /\ n = 2%nat /\ length (whole 7 (rev exr_st)) = 4%nat.
Proof.
  destruct (exr_run solve svals o exr_st []) as (s & Es); [intros i Hi; cbn in Hi; intuition (subst; apply exr_complete)|].
  assert (Hk : forall j, In j exr_st -> keyed j /\ rots j) by (intros i Hi; cbn in Hi; intuition (subst; auto using exr_keyed, exr_rots)).
  pose proof (system_thm solve svals o exr_st s Es Hk 7) as Y. cbn [exr_st rev app] in Y.
  exists s, (fst (normal (kept 7 [exr_in 1 [0; 1]%nat; exr_in 0 [0; 1]%nat]))), (snd (normal (kept 7 [exr_in 1 [0; 1]%nat; exr_in 0 [0; 1]%nat]))), 2%nat.
  split; [exact Es|]. split; [intros i Hi; cbn in Hi; intuition (subst; auto using exr_keyed, exr_rots, exr_complete)|]. split; [exact Y|]. split; reflexivity.
Qed.
