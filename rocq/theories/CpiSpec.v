(** Specification of C82 (preintegrated motion) and C83 (its dependence on the biases). *)
From Coq Require Import Reals List Bool Arith.
From Coquelicot Require Import Coquelicot.
From Verif Require Import RBool GeoModel GeoSpec JacSo3 Calc3 Lin TypesModel ManifoldSpec PropModel PropSpec CpiModel.
Open Scope R_scope.

(** a body: orientation global-to-body, velocity, position *)
Record body := mkBody { bo_R : m3; bo_v : v3; bo_p : v3 }.
(** moved by pieces of constant rate and specific force (duration, rate, force), one after the other *)
Inductive moves (g : v3) : list (R * v3 * v3) -> body -> body -> Prop :=
| moves_nil x : moves g nil x x
| moves_cons dt w a l Rs v p z : kinematics w a g Rs v p -> moves g l (mkBody (Rs dt) (v dt) (p dt)) z ->
    moves g ((dt, w, a) :: l) (mkBody (Rs 0) (v 0) (p 0)) z.
(** what the readings say when biases [bw], [ba] are taken off: the first one, or the mean of both *)
Definition unbiased (avg : bool) (b m0 m1 : v3) : v3 :=
  v3sub (if avg then v3scal (1 / 2) (v3add m0 m1) else m0) b.
Definition piece (avg : bool) (bw ba : v3) (r : reading) : R * v3 * v3 :=
  (rd_t1 r - rd_t0 r, unbiased avg bw (rd_w0 r) (rd_w1 r), unbiased avg ba (rd_a0 r) (rd_a1 r)).
Definition duration (l : list reading) : R := fold_right (fun r s => rd_t1 r - rd_t0 r + s) 0 l.
(** no rotation at all, or one that is not taken for slow *)
Definition rate_ok (w : v3) : Prop := w = v3zero \/ 8726646 / 1000000000 <= v3norm w.
Definition rate_in (w : v3) : Prop := w = v3zero \/ 8726646 / 1000000000 < v3norm w.
Definition rates (P : v3 -> Prop) (avg : bool) (bw : v3) (l : list reading) : Prop :=
  forall r, In r l -> rd_t1 r - rd_t0 r = 0 \/ P (unbiased avg bw (rd_w0 r) (rd_w1 r)).
