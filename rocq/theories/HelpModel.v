(** Model of ov_msckf/src/update/UpdaterHelper.cpp: get_feature_jacobian_representation 32-190 and
    get_feature_jacobian_full 192-424.

    Simplifications: doubles are exact reals, divisions as in LandModel; [UB] for a failed assert and for
    a .at() that throws; the std::unordered_map of measurements is the list of its entries in iteration
    order (any order); a state variable is named by its map key (a clone by its time, the extrinsics and
    intrinsics by the camera id) instead of its address. *)
From Coq Require Import Reals List ZArith Bool.
From Verif Require Import RBool Outcome Lin GeoModel LandModel CamModel.
Import ListNotations.
Open Scope R_scope.

(** clone: value and first estimate; extrinsics R_ItoC, p_IinC [State.h 150-165] *)
Record cpose := mkPose { po_R : m3; po_p : v3; po_Rf : m3; po_pf : v3 }.
(** State.h 150-165 *)
Record calib := mkCal { ca_R : m3; ca_p : v3 }.
(** the parts of State read by the two functions [State.h 150-165] *)
Record henv := mkEnv { he_fej : bool; he_cal : bool; he_int : bool;
  he_clone : R -> option cpose; he_calib : nat -> option calib; he_intr : nat -> option vec; he_cam : nat -> option camera }.
(** UpdaterHelperFeature (UpdaterHelper.h 46-88); measurements: camera id, then (time, pixel) *)
Record hfeat := mkHf { hf_rep : rep; hf_acam : Z; hf_atime : R; hf_pA : v3; hf_pG : v3; hf_pGf : v3;
  hf_meas : list (nat * list (R * vec)) }.

(** std::map::at of UpdaterHelper.cpp 78-94 *)
Definition at_ {A} (o : option A) : outcome A := match o with Some a => Ok a | None => UB end.
(** .at(feature.anchor_cam_id): -1 converts to a huge size_t [UpdaterHelper.cpp 78-94] *)
Definition cam_at {A} (m : nat -> option A) (c : Z) : outcome A := if (c <? 0)%Z then UB else at_ (m (Z.to_nat c)).

(** matrices of fixed size as index functions [helper for the blocks of UpdaterHelper.cpp 290-415] *)
Definition m3mat (A : m3) : mat := fun i j =>
  match i, j with
  | 0, 0 => m00 A | 0, 1 => m01 A | 0, _ => m02 A
  | 1, 0 => m10 A | 1, 1 => m11 A | 1, _ => m12 A
  | _, 0 => m20 A | _, 1 => m21 A | _, _ => m22 A
  end%nat.
(** helper for the blocks of UpdaterHelper.cpp 290-415 *)
Definition v3vec (v : v3) : vec := fun i => match i with 0 => vx v | 1 => vy v | _ => vz v end%nat.
(** helper for the blocks of UpdaterHelper.cpp 290-415 *)
Definition col (v : v3) : mat := fun i _ => v3vec v i.
(** [A | B], A with 3 columns [helper for the blocks of UpdaterHelper.cpp 290-415] *)
Definition beside (A B : mat) : mat := fun i j => if (j <? 3)%nat then A i j else B i (j - 3)%nat.

(** the variables of x_order, UpdaterHelper.cpp 202-262 *)
Inductive key := KClone (t : R) | KCalib (c : nat) | KIntr (c : nat).
(** the variables of x_order, UpdaterHelper.cpp 202-262 *)
Definition ksize (k : key) : nat := match k with KIntr _ => 8 | _ => 6 end.
(** the variables of x_order, UpdaterHelper.cpp 202-262 *)
Definition keqb (a b : key) : bool :=
  match a, b with KClone t, KClone u => Reqb t u | KCalib c, KCalib d => Nat.eqb c d | KIntr c, KIntr d => Nat.eqb c d | _, _ => false end.

(** UpdaterHelper.cpp 65-68, 134-137: derivative of Landmark.cpp 38-42 at (theta, phi, rho) *)
Definition full_inv_jac (p : v3) : m3 :=
  let sin_th := sin (vx p) in let cos_th := cos (vx p) in let sin_phi := sin (vy p) in let cos_phi := cos (vy p) in let rho := vz p in
  M3 (- (1 / rho) * sin_th * sin_phi) (1 / rho * cos_th * cos_phi) (- (1 / (rho * rho)) * cos_th * sin_phi)
     (1 / rho * cos_th * sin_phi) (1 / rho * sin_th * cos_phi) (- (1 / (rho * rho)) * sin_th * sin_phi)
     0 (- (1 / rho) * sin_phi) (- (1 / (rho * rho)) * cos_phi).
(** UpdaterHelper.cpp 157-160 *)
Definition msckf_jac (p : v3) : m3 :=
  M3 (1 / vz p) 0 (- (1 / (vz p * vz p)) * vx p) 0 (1 / vz p) (- (1 / (vz p * vz p)) * vy p) 0 0 (- (1 / (vz p * vz p))).

(** UpdaterHelper.cpp 84-105: the anchor frame the Jacobians are evaluated in.  Result: R_GtoI, p_IinG,
    R_ItoC, p_IinC, p_FinA *)
Definition anchor_point (e : henv) (f : hfeat) : outcome (m3 * v3 * m3 * v3 * v3) :=
  if (hf_acam f =? -1)%Z then UB
  else
    do ca <- cam_at (he_calib e) (hf_acam f);
    do cl <- at_ (he_clone e (hf_atime f));
    if he_fej e then
      let p_FinG_best := v3add (m3v (m3mul (m3tr (po_R cl)) (m3tr (ca_R ca))) (v3sub (hf_pA f) (ca_p ca))) (po_p cl) in
      let pA := v3add (m3v (m3tr (m3mul (m3tr (po_Rf cl)) (m3tr (ca_R ca)))) (v3sub p_FinG_best (po_pf cl))) (ca_p ca) in
      Ok (po_Rf cl, po_pf cl, ca_R ca, ca_p ca, pA)
    else Ok (po_R cl, po_p cl, ca_R ca, ca_p ca, hf_pA f).

(** UpdaterHelper.cpp 32-190.  Result: H_f with its number of columns, and the extra Jacobians *)
Definition rep_jac (e : henv) (f : hfeat) : outcome (mat * nat * list (key * mat)) :=
  match hf_rep f with
  | Global3D => Ok (m3mat m3id, 3%nat, [])
  | GlobalFullInv => Ok (m3mat (full_inv_jac (full_inv_of (if he_fej e then hf_pGf f else hf_pG f))), 3%nat, [])
  | r =>
      do x <- anchor_point e f;
      let '(R_GtoI, p_IinG, R_ItoC, p_IinC, p_FinA) := x in
      let R_CtoG := m3mul (m3tr R_GtoI) (m3tr R_ItoC) in
      let H_anc := beside (m3mat (m3mul (m3scal (-1) (m3tr R_GtoI)) (skew_x (m3v (m3tr R_ItoC) (v3sub p_FinA p_IinC))))) (m3mat m3id) in
      let H_calib := beside (m3mat (m3mul (m3scal (-1) R_CtoG) (skew_x (v3sub p_FinA p_IinC)))) (m3mat (m3scal (-1) R_CtoG)) in
      let extra := (KClone (hf_atime f), H_anc) :: (if he_cal e then [(KCalib (Z.to_nat (hf_acam f)), H_calib)] else []) in
      match r with
      | Anch3D => Ok (m3mat R_CtoG, 3%nat, extra)
      | AnchFullInv => Ok (m3mat (m3mul R_CtoG (full_inv_jac (full_inv_of p_FinA))), 3%nat, extra)
      | AnchMsckf => Ok (m3mat (m3mul R_CtoG (msckf_jac (msckf_of p_FinA))), 3%nat, extra)
      | AnchSingle =>
          let rho := 1 / vz p_FinA in
          let bearing := v3scal rho p_FinA in
          Ok (col (m3v R_CtoG (v3scal (- (1 / (rho * rho))) bearing)), 1%nat, extra)
      | _ => UB
      end
  end.

(** *** get_feature_jacobian_full *)
(** map_hx, x_order and total_hx [UpdaterHelper.cpp 202-262] *)
Record lay := mkLay { ly_map : list (key * nat); ly_order : list key; ly_total : nat }.
(** UpdaterHelper.cpp 202-262 *)
Definition ly_find (m : list (key * nat)) (k : key) : option nat :=
  match find (fun x => keqb (fst x) k) m with Some x => Some (snd x) | None => None end.
(** map_hx.insert (keeps an existing entry), x_order.push_back, total_hx += size [UpdaterHelper.cpp 202-262] *)
Definition ly_push (k : key) (l : lay) : lay :=
  mkLay (match ly_find (ly_map l) k with Some _ => ly_map l | None => ly_map l ++ [(k, ly_total l)] end) (ly_order l ++ [k]) (ly_total l + ksize k).
(** only if it is not added already [UpdaterHelper.cpp 202-262] *)
Definition ly_add (k : key) (l : lay) : lay := match ly_find (ly_map l) k with Some _ => l | None => ly_push k l end.
(** UpdaterHelper.cpp 227-236 *)
Fixpoint lay_clones (e : henv) (ts : list (R * vec)) (l : lay) : outcome lay :=
  match ts with
  | [] => Ok l
  | (t, _) :: r => do cl <- at_ (he_clone e t); lay_clones e r (ly_add (KClone t) l)
  end.
(** UpdaterHelper.cpp 205-237 *)
Fixpoint lay_cams (e : henv) (ms : list (nat * list (R * vec))) (l : lay) : outcome lay :=
  match ms with
  | [] => Ok l
  | (c, ts) :: r =>
      do ca <- at_ (he_calib e c);
      do di <- at_ (he_intr e c);
      let l1 := if he_cal e then ly_push (KCalib c) l else l in
      let l2 := if he_int e then ly_push (KIntr c) l1 else l1 in
      do l3 <- lay_clones e ts l2;
      lay_cams e r l3
  end.
(** UpdaterHelper.cpp 239-263 *)
Definition lay_anchor (e : henv) (f : hfeat) (l : lay) : outcome lay :=
  if is_relative (hf_rep f) then
    if (hf_acam f =? -1)%Z then UB
    else
      do cl <- at_ (he_clone e (hf_atime f));
      let l1 := ly_add (KClone (hf_atime f)) l in
      if he_cal e then
        do ca <- cam_at (he_calib e) (hf_acam f);
        Ok (ly_add (KCalib (Z.to_nat (hf_acam f))) l1)
      else Ok l1
  else Ok l.

(** UpdaterHelper.cpp 268-290: p_FinG and p_FinG_fej *)
Definition feat_global (e : henv) (f : hfeat) : outcome (v3 * v3) :=
  if is_relative (hf_rep f) then
    if (hf_acam f =? -1)%Z then UB
    else
      do ca <- cam_at (he_calib e) (hf_acam f);
      do cl <- at_ (he_clone e (hf_atime f));
      let p := v3add (m3v (m3mul (m3tr (po_R cl)) (m3tr (ca_R ca))) (v3sub (hf_pA f) (ca_p ca))) (po_p cl) in
      Ok (p, p)
  else Ok (hf_pG f, hf_pGf f).

(** H.block(r0, c0, nr, nc) = B and += B [helper for the blocks of UpdaterHelper.cpp 290-415] *)
Definition put (H : mat) (r0 c0 nr nc : nat) (B : mat) : mat := fun i j =>
  if ((r0 <=? i) && (i <? r0 + nr) && (c0 <=? j) && (j <? c0 + nc))%nat%bool then B (i - r0)%nat (j - c0)%nat else H i j.
(** helper for the blocks of UpdaterHelper.cpp 290-415 *)
Definition addto (H : mat) (r0 c0 nr nc : nat) (B : mat) : mat := fun i j =>
  if ((r0 <=? i) && (i <? r0 + nr) && (c0 <=? j) && (j <? c0 + nc))%nat%bool then H i j + B (i - r0)%nat (j - c0)%nat else H i j.
(** helper for the blocks of UpdaterHelper.cpp 290-415 *)
Definition put_seg (v : vec) (r0 n : nat) (x : vec) : vec := fun i => if ((r0 <=? i) && (i <? r0 + n))%nat%bool then x (i - r0)%nat else v i.
(** map_hx[k]: a missing key would be inserted with 0, a column of some other variable; [UB] [UpdaterHelper.cpp 392-411] *)
Definition ly_at (l : lay) (k : key) : outcome nat := at_ (ly_find (ly_map l) k).

(** H_f, H_x, res and the next measurement number [UpdaterHelper.cpp 290-300] *)
Record hacc := mkAcc { ac_Hf : mat; ac_Hx : mat; ac_res : vec; ac_c : nat }.
(** UpdaterHelper.cpp 390-392: the extra Jacobians *)
Fixpoint add_extra (l : lay) (c : nat) (dz_dpfg : mat) (ex : list (key * mat)) (H : mat) : outcome mat :=
  match ex with
  | [] => Ok H
  | (k, B) :: r => do o <- ly_at l k; add_extra l c dz_dpfg r (addto H (2 * c) o 2 (ksize k) (mmul 3 dz_dpfg B))
  end.
(** UpdaterHelper.cpp 331-420: one measurement *)
Definition one_meas (e : henv) (l : lay) (pG pGf : v3) (dl : mat) (ncol : nat) (ex : list (key * mat)) (c : nat)
    (ca : calib) (t : R) (uv : vec) (a : hacc) : outcome hacc :=
  do cl <- at_ (he_clone e t);
  do cm <- at_ (he_cam e c);
  do di <- at_ (he_intr e c);
  let p_FinIi := m3v (po_R cl) (v3sub pG (po_p cl)) in
  let p_FinCi := v3add (m3v (ca_R ca) p_FinIi) (ca_p ca) in
  let uv_norm := vec2 (vx p_FinCi / vz p_FinCi) (vy p_FinCi / vz p_FinCi) in
  let uv_dist := cam_distort cm di uv_norm in
  let res := put_seg (ac_res a) (2 * ac_c a) 2 (fun i => uv i - uv_dist i) in
  let R_GtoIi := if he_fej e then po_Rf cl else po_R cl in
  let p_IiinG := if he_fej e then po_pf cl else po_p cl in
  let p_FinIi := if he_fej e then m3v R_GtoIi (v3sub pGf p_IiinG) else p_FinIi in
  let p_FinCi := if he_fej e then v3add (m3v (ca_R ca) p_FinIi) (ca_p ca) else p_FinCi in
  let dz_dzn := cam_dzn cm di uv_norm in
  let dz_dzeta := cam_dzeta cm di uv_norm in
  let dzn_dpfc := mat2 (v3vec (V3 (1 / vz p_FinCi) 0 (- vx p_FinCi / (vz p_FinCi * vz p_FinCi)))) (v3vec (V3 0 (1 / vz p_FinCi) (- vy p_FinCi / (vz p_FinCi * vz p_FinCi)))) in
  let dpfc_dpfg := m3mul (ca_R ca) R_GtoIi in
  let dpfc_dclone := beside (m3mat (m3mul (ca_R ca) (skew_x p_FinIi))) (m3mat (m3scal (-1) dpfc_dpfg)) in
  let dz_dpfc := mmul 2 dz_dzn dzn_dpfc in
  let dz_dpfg := mmul 3 dz_dpfc (m3mat dpfc_dpfg) in
  let Hf := put (ac_Hf a) (2 * ac_c a) 0 2 ncol (mmul 3 dz_dpfg dl) in
  do oc <- ly_at l (KClone t);
  let H1 := put (ac_Hx a) (2 * ac_c a) oc 2 6 (mmul 3 dz_dpfc dpfc_dclone) in
  do H2 <- add_extra l (ac_c a) dz_dpfg ex H1;
  do H3 <- (if he_cal e then
              do o <- ly_at l (KCalib c);
              Ok (addto H2 (2 * ac_c a) o 2 6 (mmul 3 dz_dpfc (beside (m3mat (skew_x (v3sub p_FinCi (ca_p ca)))) (m3mat m3id))))
            else Ok H2);
  do H4 <- (if he_int e then do o <- ly_at l (KIntr c); Ok (put H3 (2 * ac_c a) o 2 8 dz_dzeta) else Ok H3);
  Ok (mkAcc Hf H4 res (S (ac_c a))).
(** UpdaterHelper.cpp 331-420 (as above) *)
Fixpoint cam_meas (e : henv) (l : lay) (pG pGf : v3) (dl : mat) (ncol : nat) (ex : list (key * mat)) (c : nat)
    (ca : calib) (ts : list (R * vec)) (a : hacc) : outcome hacc :=
  match ts with
  | [] => Ok a
  | (t, uv) :: r => do a' <- one_meas e l pG pGf dl ncol ex c ca t uv a; cam_meas e l pG pGf dl ncol ex c ca r a'
  end.
(** UpdaterHelper.cpp 331-420 (as above) *)
Fixpoint all_meas (e : henv) (l : lay) (pG pGf : v3) (dl : mat) (ncol : nat) (ex : list (key * mat))
    (ms : list (nat * list (R * vec))) (a : hacc) : outcome hacc :=
  match ms with
  | [] => Ok a
  | (c, ts) :: r =>
      do di <- at_ (he_intr e c);
      do ca <- at_ (he_calib e c);
      do a' <- cam_meas e l pG pGf dl ncol ex c ca ts a;
      all_meas e l pG pGf dl ncol ex r a'
  end.

(** results of UpdaterHelper.cpp 192-425 *)
Record fjac := mkJac { fj_Hf : mat; fj_cols : nat; fj_Hx : mat; fj_res : vec; fj_order : list key; fj_total : nat; fj_rows : nat }.
(** UpdaterHelper.cpp 192-424 *)
Definition full_jac (e : henv) (f : hfeat) : outcome fjac :=
  do l1 <- lay_cams e (hf_meas f) (mkLay [] [] 0);
  do l <- lay_anchor e f l1;
  do pp <- feat_global e f;
  do rj <- rep_jac e f;
  let '(dl, ncol, ex) := rj in
  do a <- all_meas e l (fst pp) (snd pp) dl ncol ex (hf_meas f) (mkAcc mzero mzero (fun _ => 0) 0);
  Ok (mkJac (ac_Hf a) ncol (ac_Hx a) (ac_res a) (ly_order l) (ly_total l) (2 * ac_c a)).
