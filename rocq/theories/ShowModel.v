(** Model of VioManager::get_features_SLAM and get_features_ARUCO (ov_msckf/src/core/VioManagerHelper.cpp 417-463).

    Simplifications: doubles are exact reals; the feature id, a size_t cast to int, is compared as a number (ids
    stay below 2^31); the unordered_map is read in the order of [s_slam]; a failed assert and a .at() that throws
    are [UB]. *)
From Coq Require Import Reals List ZArith Bool.
From Verif Require Import RBool Outcome Lin GeoModel TypesModel StateModel LandModel CamModel HelpModel AnchorModel.
Import ListNotations.
Open Scope R_scope.

(** VioManagerHelper.cpp 422-435 and 445-458: one landmark in the global frame *)
Definition show_one (a : slam) (p : nat) : outcome v3 :=
  match find_top (s_vars (sl_st a)) p with
  | Some (TVec v) =>
      let m := sl_meta a p in
      if is_relative (lm_rep m) then
        guard (negb (lm_acam m =? -1)%Z) UB
          (do ca <- cam_at (calib_at a) (lm_acam m);
           do cl <- at_ (clone_at (sl_st a) (lm_atime m));
           do x <- get_xyz (land_of m v) false;
           Ok (v3add (m3v (m3mul (m3tr (po_R cl)) (m3tr (ca_R ca))) (v3sub x (ca_p ca))) (po_p cl)))
      else get_xyz (land_of m v) false
  | _ => UB
  end.
(** VioManagerHelper.cpp 422-435 and 445-458 (as above) *)
Fixpoint show_all (a : slam) (skip : nat -> bool) (l : list (nat * (nat * bool))) : outcome (list v3) :=
  match l with
  | [] => Ok []
  | e :: r => if skip (fst e) then show_all a skip r else do x <- show_one a (fst (snd e)); do y <- show_all a skip r; Ok (x :: y)
  end.
(** VioManagerHelper.cpp 417-438 *)
Definition get_features_SLAM (a : slam) : outcome (list v3) :=
  show_all a (fun id => Z.of_nat id <=? 4 * o_max_aruco (s_opts (sl_st a)))%Z (s_slam (sl_st a)).
(** VioManagerHelper.cpp 440-463 *)
Definition get_features_ARUCO (a : slam) : outcome (list v3) :=
  show_all a (fun id => 4 * o_max_aruco (s_opts (sl_st a)) <? Z.of_nat id)%Z (s_slam (sl_st a)).
