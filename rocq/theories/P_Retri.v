(** C94: the incremental triangulation of the active tracks; C95: what is published of it (VioManagerHelper.cpp 190-387). *)
From Coq Require Import Reals List Arith Bool.
From Verif Require Import RBool Outcome GeoModel GeoSpec DbModel FeatModel FeatSpec FeatEx RetriModel RetriSpec RetriProofs RetriThms RetriShow RetriEx.
Import ListNotations.
Open Scope R_scope.

(** the camera pose of the specification maps points as the two poses do one after the other *)
Theorem C94_eye B C P : is_rot (fst B) -> is_rot (fst C) -> m3v (fst (eye B C)) (v3sub P (snd (eye B C))) = v3add (m3v (fst C) (m3v (fst B) (v3sub P (snd B)))) (snd C).
Proof. exact (eye_maps B C P). Qed.
Print Assumptions C94_eye.

(** C94: after any number of calls the system of a feature is the sum over the kept observations, and there is none
    for a feature that the newest message does not show *)
Theorem C94_system solve svals o l s : retri_run solve svals o [] l = Ok s -> (forall i, In i l -> keyed i /\ rots i) ->
  forall id, alook s id = stored (kept id (rev l)).
Proof. exact (system_thm solve svals o l s). Qed.
Print Assumptions C94_system.

(** with at most one observation per message these are all observations since the last gap *)
Theorem C94_whole solve svals o l s id : retri_run solve svals o [] l = Ok s -> (forall i, In i l -> keyed i /\ rots i) -> (forall i, In i l -> (length (views i id) <= 1)%nat) ->
  alook s id = stored (whole id (rev l)).
Proof. intros E H L. rewrite (system_thm solve svals o l s E H id), kept_whole; [reflexivity|]. intros i Hi. apply L. apply in_rev. exact Hi. Qed.
Print Assumptions C94_whole.

(** with two cameras that see the same feature they are not: of every message one observation is kept *)
Theorem C94_stereo_refuted solve svals o : exists l s A b n, retri_run solve svals o [] l = Ok s /\ (forall i, In i l -> keyed i /\ rots i /\ complete i) /\
  alook s 7 = Some (A, b, n) /\ n = 2%nat /\ length (whole 7 (rev l)) = 4%nat.
Proof. exists exr_st. exact (exr_stereo solve svals o). Qed.
Print Assumptions C94_stereo_refuted.

(** a position that is given out is the one point closest to the viewing lines of at least four observations, and
    lies within the depth limits of a camera that sees it now *)
Theorem C94_position solve svals o l s i x id p : retri_run solve svals o [] l = Ok s -> (forall j, In j (i :: l) -> keyed j /\ rots j) -> solves solve -> sv_ok svals ->
  retriangulate solve svals o s i = Ok x -> alook (ri_slam i) id = None -> alook (ro_pos x) id = Some p ->
  let ms := kept id (rev l) in (3 <= length ms)%nat /\ exists v, In v (views i id) /\ closest (v :: ms) p /\ fo_min o <= depth v p <= fo_max o.
Proof. exact (position_thm solve svals o l s i x id p). Qed.
Print Assumptions C94_position.

(** it is the true point if the observations show one *)
Theorem C94_exact solve svals o l s i x id p P : retri_run solve svals o [] l = Ok s -> (forall j, In j (i :: l) -> keyed j /\ rots j) -> solves solve -> sv_ok svals ->
  retriangulate solve svals o s i = Ok x -> alook (ri_slam i) id = None -> alook (ro_pos x) id = Some p ->
  (forall m, In m (views i id ++ kept id (rev l)) -> appears P m) -> p = P.
Proof. exact (exact_thm solve svals o l s i x id p P). Qed.
Print Assumptions C94_exact.

(** and it is given out when the last camera of the message passes the checks *)
Theorem C94_recovered solve svals o l s i x id P v vs : retri_run solve svals o [] l = Ok s -> (forall j, In j (i :: l) -> keyed j /\ rots j) -> solves solve -> sv_ok svals ->
  retriangulate solve svals o s i = Ok x -> views i id = v :: vs -> (3 <= length (kept id (rev l)))%nat ->
  (forall m, In m (views i id ++ kept id (rev l)) -> appears P m) ->
  let w := last (v :: vs) v in let A := fst (normal (w :: kept id (rev l))) in
  m3det A <> 0 -> Rabs (fst (svals A) / snd (svals A)) <= fo_cond o -> fo_min o <= depth w P <= fo_max o ->
  alook (ro_pos x) id = Some P.
Proof. exact (recovered_thm solve svals o l s i x id P v vs). Qed.
Print Assumptions C94_recovered.

(** C95: a landmark of the state is given out at its own position *)
Theorem C95_landmark solve svals o old i x id f : retriangulate solve svals o old i = Ok x -> keyed i -> rots i -> alook (ri_slam i) id = Some f ->
  exists P, alook (ro_pos x) id = Some P /\ stands i f P.
Proof. exact (landmark_thm solve svals o old i x id f). Qed.
Print Assumptions C95_landmark.

(** a feature has a pixel with depth exactly if it has a position, camera 0 sees it now, inside of the image, and its
    position is at least 0.1 in front of that camera; the pixel is the observed one *)
Theorem C95_uvd solve svals o old i x id q : retriangulate solve svals o old i = Ok x ->
  (alook (ro_uvd x) id = Some q <->
   exists p u B C, alook (ro_pos x) id = Some p /\ pixel0 i id = Some u /\ ri_clone i (ri_time i) = Some B /\ ri_calib i 0 = Some C /\
     let z := vz (v3add (m3v (fst C) (m3v (fst B) (v3sub p (snd B)))) (snd C)) in
     q = V3 (fst u) (snd u) z /\ 1 / 10 <= z /\ 0 <= fst u < INR (ri_w i) /\ 0 <= snd u < INR (ri_h i)).
Proof. exact (uvd_thm solve svals o old i x id q). Qed.
Print Assumptions C95_uvd.

(** no lookup fails when the clone of the message, the calibration and the anchors are there *)
Theorem C95_defined solve svals o old i : complete i -> exists x, retriangulate solve svals o old i = Ok x.
Proof. exact (defined_thm solve svals o old i). Qed.
Print Assumptions C95_defined.

(** a feature seen in four messages from four places, and a landmark *)
Example C94_ex : exists s x, retri_run cramer exr_sv (dflt 1) [] exr_l = Ok s /\ retriangulate cramer exr_sv (dflt 1) s (exr_in 3 [0%nat]) = Ok x /\
  alook (ro_pos x) 7 = Some exr_P /\ alook (ro_uvd x) 7 = Some (V3 (3 / 2) 0 2) /\ alook (ro_sys x) 9 = None /\ exists P, alook (ro_pos x) 9 = Some P /\ vz P = 5.
Proof. exact exr_case. Qed.
Example C94_ex_ok k cams : keyed (exr_in k cams) /\ rots (exr_in k cams) /\ complete (exr_in k cams) /\ solves cramer /\ sv_ok exr_sv.
Proof. split; [apply exr_keyed|]. split; [apply exr_rots|]. split; [apply exr_complete|]. split; [apply cramer_solves|]. intros A. apply iff_refl. Qed.
