(** Model of ov_core/src/feat/FeatureInitializer.cpp: single_triangulation 30-112, single_triangulation_1d
    114-195, single_gaussnewton 197-375, compute_error 377-422.

    Simplifications: float and double are exact reals; [UB] for a .at() that throws and for back() of an empty
    vector; timestamps and uvs_norm of a feature, two maps with the same keys and vectors of the same length
    (C19), are one list of (camera, [(time, uv)]) in iteration order.  Eigen's colPivHouseholderQr().solve,
    JacobiSVD and HouseholderQR are arguments.  In the refinement a cost may be infinite or NaN. *)
From Coq Require Import Reals List Bool Arith.
From Verif Require Import RBool Outcome GeoModel.
Import ListNotations.
Open Scope R_scope.

(** FeatureInitializerOptions.h 36-75 *)
Record fopts := mkFopts { fo_runs : nat; fo_lam0 : R; fo_lam_max : R; fo_min_dx : R; fo_min_dcost : R; fo_mult : R;
  fo_min : R; fo_max : R; fo_base : R; fo_cond : R }.
(** ClonePose: R_GtoC, p_CinG [FeatureInitializer.h 51-75] *)
Definition clones := nat -> R -> option (m3 * v3).
(** FeatureInitializer.h 51-75 *)
Definition obs := list (nat * list (R * (R * R))).
(** one measurement with its camera, its position in the camera's vector and its camera pose [FeatureInitializer.cpp 58-66] *)
Record view := mkView { w_cam : nat; w_idx : nat; w_R : m3; w_p : v3; w_u : R; w_v : R }.
(** FeatureInitializer.cpp 58-66 *)
Definition look {A} (o : option A) : outcome A := match o with Some a => Ok a | None => UB end.

(** FeatureInitializer.cpp 38-48, 122-132: the camera with the most measurements, the first one of several *)
Definition most_meas (f : obs) : nat * nat :=
  fold_left (fun a x => if (snd a <? length (snd x))%nat then (fst x, length (snd x)) else a) f (0%nat, 0%nat).
(** timestamps.at(camera) [FeatureInitializer.cpp 58-66] *)
Definition times_of (f : obs) (c : nat) : outcome (list (R * (R * R))) :=
  look (match find (fun x => Nat.eqb (fst x) c) f with Some x => Some (snd x) | None => None end).
(** FeatureInitializer.cpp 58-66 *)
Definition last_of {A} (l : list A) : outcome A := match rev l with a :: _ => Ok a | [] => UB end.
(** anchor camera, anchor time, its bearing and its position in the camera's vector [FeatureInitializer.cpp 34-46, 118-131] *)
Definition anchor_of (f : obs) : outcome (nat * R * (R * R) * nat) :=
  let c := fst (most_meas f) in
  do ts <- times_of f c;
  do l <- last_of ts;
  Ok (c, fst l, snd l, (length ts - 1)%nat).

(** FeatureInitializer.cpp 60-67: the camera pose of every measurement *)
Fixpoint cam_views (cs : clones) (c m : nat) (ts : list (R * (R * R))) : outcome (list view) :=
  match ts with
  | [] => Ok []
  | (t, uv) :: r =>
      do q <- look (cs c t);
      do l <- cam_views cs c (S m) r;
      Ok (mkView c m (fst q) (snd q) (fst uv) (snd uv) :: l)
  end.
(** FeatureInitializer.cpp 60-67 (as above) *)
Fixpoint views_of (cs : clones) (f : obs) : outcome (list view) :=
  match f with
  | [] => Ok []
  | (c, ts) :: r => do a <- cam_views cs c 0 ts; do b <- views_of cs r; Ok (a ++ b)
  end.

(** FeatureInitializer.cpp 69-73: pose relative to the anchor *)
Definition rel_R (RA : m3) (w : view) : m3 := m3mul (w_R w) (m3tr RA).
(** FeatureInitializer.cpp 69-73 (as above) *)
Definition rel_p (RA : m3) (pA : v3) (w : view) : v3 := m3v RA (v3sub (w_p w) pA).
(** FeatureInitializer.cpp 75-80 *)
Definition bearing (RA : m3) (w : view) : v3 :=
  let b := m3v (m3tr (rel_R RA w)) (V3 (w_u w) (w_v w) 1) in v3div b (v3norm b).
(** FeatureInitializer.cpp 82-85 *)
Definition tri_step (RA : m3) (pA : v3) (s : m3 * v3) (w : view) : m3 * v3 :=
  let B := skew_x (bearing RA w) in
  let Ai := m3mul (m3tr B) B in
  (m3add (fst s) Ai, v3add (snd s) (m3v Ai (rel_p RA pA w))).
(** FeatureInitializer.cpp 82-85 (as above) *)
Definition tri_system (RA : m3) (pA : v3) (ws : list view) : m3 * v3 := fold_left (tri_step RA pA) ws (M3 0 0 0 0 0 0 0 0 0, v3zero).

(** |condA| > max_cond_number, with x/0 infinite and 0/0 NaN [FeatureInitializer.cpp 95-103] *)
Definition bad_cond (o : fopts) (sv : R * R) : bool :=
  if Reqb (snd sv) 0 then negb (Reqb (fst sv) 0) else Rltb (fo_cond o) (Rabs (fst sv / snd sv)).

(** result: anchor camera and time, and p_FinA, p_FinG when it returns true [FeatureInitializer.cpp 108-111] *)
Record tri := mkTri { tr_cam : nat; tr_time : R; tr_pos : option (v3 * v3) }.
(** FeatureInitializer.cpp 30-112; [solve] and [svals] (largest and smallest singular value) are Eigen's *)
Definition triangulate (solve : m3 -> v3 -> v3) (svals : m3 -> R * R) (o : fopts) (cs : clones) (f : obs) : outcome tri :=
  do a <- anchor_of f;
  let '(c, t, _, _) := a in
  do q <- look (cs c t);
  let (RA, pA) := (q : m3 * v3) in
  do ws <- views_of cs f;
  let s := tri_system RA pA ws in
  let pf := solve (fst s) (snd s) in
  Ok (mkTri c t (if bad_cond o (svals (fst s)) || Rltb (vz pf) (fo_min o) || Rltb (fo_max o) (vz pf) then None
                 else Some (pf, v3add (m3v (m3tr RA) pf) pA))).

(** FeatureInitializer.cpp 155-180 *)
Definition tri1_step (RA : m3) (pA bA : v3) (ac ai : nat) (s : R * R) (w : view) : R * R :=
  if Nat.eqb (w_cam w) ac && Nat.eqb (w_idx w) ai then s
  else
    let B := skew_x (bearing RA w) in
    let x := m3v B bA in
    (fst s + v3dot x x, snd s + v3dot x (m3v B (rel_p RA pA w))).
(** FeatureInitializer.cpp 114-195.  A = 0 gives an infinite or NaN depth, which is rejected: an infinite
    one exceeds a limit, and p_f.norm() of a NaN is NaN *)
Definition triangulate_1d (o : fopts) (cs : clones) (f : obs) : outcome tri :=
  do a <- anchor_of f;
  let '(c, t, uv, ai) := a in
  do q <- look (cs c t);
  let (RA, pA) := (q : m3 * v3) in
  let b0 := V3 (fst uv) (snd uv) 1 in
  let bA := v3div b0 (v3norm b0) in
  do ws <- views_of cs f;
  let s := fold_left (tri1_step RA pA bA c ai) ws (0, 0) in
  if Reqb (fst s) 0 then Ok (mkTri c t None)
  else
    let pf := v3scal (snd s / fst s) bA in
    Ok (mkTri c t (if Rltb (vz pf) (fo_min o) || Rltb (fo_max o) (vz pf) then None else Some (pf, v3add (m3v (m3tr RA) pf) pA))).

(** *** refinement *)
(** a nonnegative double: finite, infinite or NaN [FeatureInitializer.cpp 206-330] *)
Inductive ext := Fin (x : R) | Inf | NaN.
(** FeatureInitializer.cpp 206-330 *)
Definition ext_add (a b : ext) : ext := match a, b with NaN, _ => NaN | _, NaN => NaN | Inf, _ => Inf | _, Inf => Inf | Fin x, Fin y => Fin (x + y) end.
(** a <= b of IEEE [FeatureInitializer.cpp 206-330] *)
Definition ext_leb (a b : ext) : bool := match a, b with NaN, _ => false | _, NaN => false | _, Inf => true | Inf, _ => false | Fin x, Fin y => Rleb x y end.
(** (old - new) / old < c; only evaluated when new <= old, so the infinite cases are NaN [FeatureInitializer.cpp 306] *)
Definition small_drop (old new : ext) (c : R) : bool :=
  match old, new with Fin x, Fin y => if Reqb x 0 then false else Rltb ((x - y) / x) c | _, _ => false end.

(** FeatureInitializer.cpp 252-259, 401-405: anchor relative pose and hi1..hi3 *)
Definition rel_A (RA : m3) (pA : v3) (w : view) : v3 := m3v (m3scal (-1) (rel_R RA w)) (rel_p RA pA w).
(** FeatureInitializer.cpp 252-259, 401-405 (as above) *)
Definition hi (RA : m3) (pA : v3) (w : view) (x : v3) : v3 :=
  let r := rel_R RA w in let p := rel_A RA pA w in
  V3 (m00 r * vx x + m01 r * vy x + m02 r + vz x * vx p) (m10 r * vx x + m11 r * vy x + m12 r + vz x * vy p) (m20 r * vx x + m21 r * vy x + m22 r + vz x * vz p).
(** FeatureInitializer.cpp 406-412: squared residual; a division by zero makes it infinite or NaN *)
Definition sq_err (RA : m3) (pA : v3) (x : v3) (w : view) : ext :=
  let h := hi RA pA w x in
  if Reqb (vz h) 0 then (if Reqb (vx h) 0 || Reqb (vy h) 0 then NaN else Inf)
  else let r1 := w_u w - vx h / vz h in let r2 := w_v w - vy h / vz h in Fin (r1 * r1 + r2 * r2).
(** FeatureInitializer.cpp 377-422; (alpha, beta, rho) are the components of [x] *)
Definition cost (RA : m3) (pA : v3) (ws : list view) (x : v3) : ext := fold_left (fun e w => ext_add e (sq_err RA pA x w)) ws (Fin 0).

(** FeatureInitializer.cpp 260-287: H (two rows) and the residual of one measurement *)
Definition gn_rows (RA : m3) (pA : v3) (x : v3) (w : view) : v3 * v3 * (R * R) :=
  let r := rel_R RA w in let p := rel_A RA pA w in let h := hi RA pA w x in let d := vz h * vz h in
  (V3 ((m00 r * vz h - vx h * m20 r) / d) ((m01 r * vz h - vx h * m21 r) / d) ((vx p * vz h - vx h * vz p) / d),
   V3 ((m10 r * vz h - vy h * m20 r) / d) ((m11 r * vz h - vy h * m21 r) / d) ((vy p * vz h - vy h * vz p) / d),
   (w_u w - vx h / vz h, w_v w - vy h / vz h)).
(** FeatureInitializer.cpp 231-294: Hess and grad; [None] when a division by zero makes them NaN *)
Fixpoint gn_sums (RA : m3) (pA : v3) (x : v3) (ws : list view) (s : m3 * v3) : option (m3 * v3) :=
  match ws with
  | [] => Some s
  | w :: r =>
      if Reqb (vz (hi RA pA w x)) 0 then None
      else
        let '(h1, h2, res) := gn_rows RA pA x w in
        gn_sums RA pA x r (m3add (fst s) (m3add (m3outer h1 h1) (m3outer h2 h2)), v3add (snd s) (v3add (v3scal (fst res) h1) (v3scal (snd res) h2)))
  end.
(** FeatureInitializer.cpp 297-300 *)
Definition damped (H : m3) (lam : R) : m3 :=
  M3 (m00 H * (1 + lam)) (m01 H) (m02 H) (m10 H) (m11 H * (1 + lam)) (m12 H) (m20 H) (m21 H) (m22 H * (1 + lam)).

(** variables of the loop; [g_sums] = (Hess, grad), kept while recompute is false [FeatureInitializer.cpp 205-216] *)
Record gn := mkGn { g_x : v3; g_lam : R; g_eps : R; g_runs : nat; g_re : bool; g_sums : option (m3 * v3); g_cost : ext }.
(** FeatureInitializer.cpp 227-336: one pass of the loop; [inr] is break.  A NaN step gives a NaN cost *)
Definition gn_step (solve : m3 -> v3 -> v3) (o : fopts) (RA : m3) (pA : v3) (ws : list view) (g : gn) : gn + gn :=
  let sums := if g_re g then gn_sums RA pA (g_x g) ws (M3 0 0 0 0 0 0 0 0 0, v3zero) else g_sums g in
  let dx := match sums with Some (H, gr) => Some (solve (damped H (g_lam g)) gr) | None => None end in
  let c := match dx with Some d => cost RA pA ws (v3add (g_x g) d) | None => NaN end in
  let d := match dx with Some d => d | None => v3zero end in
  if ext_leb c (g_cost g) && small_drop (g_cost g) c (fo_min_dcost o) then
    inr (mkGn (v3add (g_x g) d) (g_lam g) 0 (g_runs g) (g_re g) sums (g_cost g))
  else if ext_leb c (g_cost g) then
    inl (mkGn (v3add (g_x g) d) (g_lam g / fo_mult o) (v3norm d) (S (g_runs g)) true sums c)
  else inl (mkGn (g_x g) (g_lam g * fo_mult o) (g_eps g) (g_runs g) false sums (g_cost g)).
(** FeatureInitializer.cpp 227-336 (as above) *)
Definition gn_goes_on (o : fopts) (g : gn) : bool := (g_runs g <? fo_runs o)%nat && Rltb (g_lam g) (fo_lam_max o) && Rltb (fo_min_dx o) (g_eps g).
(** at most [n] passes; [None] when that is not enough [FeatureInitializer.cpp 226-330] *)
Fixpoint gn_loop (solve : m3 -> v3 -> v3) (o : fopts) (RA : m3) (pA : v3) (ws : list view) (n : nat) (g : gn) : option gn :=
  if gn_goes_on o g then
    match n with
    | O => None
    | S n => match gn_step solve o RA pA ws g with inr g' => Some g' | inl g' => gn_loop solve o RA pA ws n g' end
    end
  else Some g.
(** FeatureInitializer.cpp 200-224 *)
Definition gn_start (o : fopts) (RA : m3) (pA : v3) (ws : list view) (p : v3) : gn :=
  let x := V3 (vx p / vz p) (vy p / vz p) (1 / vz p) in mkGn x (fo_lam0 o) 10000 0 true None (cost RA pA ws x).

(** FeatureInitializer.cpp 343-361: largest baseline across the viewing ray; [Q] is householderQ of the column vector *)
Definition max_baseline (Q : m3) (RA : m3) (pA : v3) (ws : list view) : R :=
  fold_left (fun b w =>
    let q := rel_p RA pA w in
    let y1 := m01 Q * vx q + m11 Q * vy q + m21 Q * vz q in
    let y2 := m02 Q * vx q + m12 Q * vy q + m22 Q * vz q in
    let n := sqrt (y1 * y1 + y2 * y2) in
    if Rltb b n then n else b) ws 0.
(** FeatureInitializer.cpp 197-375.  Outer option: [None] when [n] passes are not enough; inner: p_FinA,
    p_FinG when it returns true.  rho = 0 makes the depth infinite, a zero baseline makes the ratio infinite *)
Definition refine (solve : m3 -> v3 -> v3) (houseQ : v3 -> m3) (o : fopts) (cs : clones) (f : obs) (ac : nat) (at_ : R) (p : v3) (n : nat) : outcome (option (option (v3 * v3))) :=
  do q <- look (cs ac at_);
  let (RA, pA) := (q : m3 * v3) in
  do ws <- views_of cs f;
  match gn_loop solve o RA pA ws n (gn_start o RA pA ws p) with
  | None => Ok None
  | Some g =>
      let x := g_x g in
      if Reqb (vz x) 0 then Ok (Some None)
      else
        let pf := V3 (vx x / vz x) (vy x / vz x) (1 / vz x) in
        let b := max_baseline (houseQ pf) RA pA ws in
        if Rltb (vz pf) (fo_min o) || Rltb (fo_max o) (vz pf) || (if Reqb b 0 then true else Rltb (fo_base o) (v3norm pf / b)) then Ok (Some None)
        else Ok (Some (Some (pf, v3add (m3v (m3tr RA) pf) pA)))
  end.
