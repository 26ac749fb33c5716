(** Rows of F for the analytic method. *)
From Coq Require Import Reals Lra Psatz Bool List Arith Lia.
From Coquelicot Require Import Coquelicot.
From Verif Require Import Outcome RBool GeoModel GeoSpec GeoProofs ExpProofs Se3Proofs JacSo3 Lin TypesModel StateModel.
From Verif Require Import ManifoldSpec ManifoldProofs Calc3 ImuModel PropModel PropSpec PropRows.
Import ListNotations.
Open Scope R_scope.

Definition asmA (x : pst) (b1 b2 b3' b5 b7 b8 b9 b10 b11 b12 : m3) (c1 c2 c3 c4 c5 c6 c7 c8 c9 : cols) (d1 d2 d3 d4 d5 d6 : m3) : mat :=
  let F := mzero in
  let F := put3 F th_id th_id b1 in
  let F := put3 F p_id th_id b2 in
  let F := put3 F v_id th_id b3' in
  let F := put1 F p_id 3 in
  let F := put3 F p_id v_id b5 in
  let F := put1 F v_id 3 in
  let F := put3 F th_id bg_id b7 in
  let F := put3 F p_id bg_id b8 in
  let F := put3 F v_id bg_id b9 in
  let F := put1 F bg_id 3 in
  let F := put3 F th_id ba_id b10 in
  let F := put3 F p_id ba_id b11 in
  let F := put3 F v_id ba_id b12 in
  let F := put1 F ba_id 3 in
  let F := ifid (Dw_id x) (fun id F =>
     let F := putc F th_id id 6 c1 in let F := putc F p_id id 6 c2 in let F := putc F v_id id 6 c3 in put1 F id 6) F in
  let F := ifid (Da_id x) (fun id F =>
     let F := putc F th_id id 6 c4 in let F := putc F p_id id 6 c5 in let F := putc F v_id id 6 c6 in put1 F id 6) F in
  let F := ifid (Tg_id x) (fun id F =>
     let F := putc F th_id id 9 c7 in let F := putc F p_id id 9 c8 in let F := putc F v_id id 9 c9 in put1 F id 9) F in
  let F := ifid (th_atoI_id x) (fun id F =>
     let F := put3 F th_id id d1 in let F := put3 F p_id id d2 in let F := put3 F v_id id d3 in put1 F id 3) F in
  let F := ifid (th_wtoI_id x) (fun id F =>
     let F := put3 F th_id id d4 in let F := put3 F p_id id d5 in let F := put3 F v_id id d6 in put1 F id 3) F in
  F.

Lemma asmA_rows x b1 b2 b3' b5 b7 b8 b9 b10 b11 b12 c1 c2 c3 c4 c5 c6 c7 c8 c9 d1 d2 d3 d4 d5 d6 e :
  let F := asmA x b1 b2 b3' b5 b7 b8 b9 b10 b11 b12 c1 c2 c3 c4 c5 c6 c7 c8 c9 d1 d2 d3 d4 d5 d6 in
  let y := mvec (err_dim x) F e in
  rows3 y 0 = v3add (v3add (v3add (v3add (v3add (v3add (v3add (m3v b1 (rows3 e 0)) (m3v b7 (rows3 e 9))) (m3v b10 (rows3 e 12)))
                 (csum 6 c1 (eDw x e))) (csum 6 c4 (eDa x e))) (csum 9 c7 (eTg x e))) (m3v d1 (ethA x e))) (m3v d4 (ethW x e)) /\
  rows3 y 3 = v3add (v3add (v3add (v3add (v3add (v3add (v3add (v3add (v3add (m3v b2 (rows3 e 0)) (rows3 e 3)) (m3v b5 (rows3 e 6))) (m3v b8 (rows3 e 9))) (m3v b11 (rows3 e 12)))
                 (csum 6 c2 (eDw x e))) (csum 6 c5 (eDa x e))) (csum 9 c8 (eTg x e))) (m3v d2 (ethA x e))) (m3v d5 (ethW x e)) /\
  rows3 y 6 = v3add (v3add (v3add (v3add (v3add (v3add (v3add (v3add (m3v b3' (rows3 e 0)) (rows3 e 6)) (m3v b9 (rows3 e 9))) (m3v b12 (rows3 e 12)))
                 (csum 6 c3 (eDw x e))) (csum 6 c6 (eDa x e))) (csum 9 c9 (eTg x e))) (m3v d3 (ethA x e))) (m3v d6 (ethW x e)) /\
  (forall i, (9 <= i < err_dim x)%nat -> y i = e i).
Proof.
  destruct x as [md cal gs df im fj dw da tg qw qa]. cbv zeta.
  destruct cal; [destruct gs, md|]; (split; [|split; [|split]]).
  all: try (unfold asmA; rowt; fail).
  all: apply good_rows; unfold asmA, err_dim; goodt.
Qed.
