(** Columns of H_Dw, H_Da, H_Tg; rows of F for the discrete method. *)
From Coq Require Import Reals Lra Psatz Bool List Arith Lia.
From Coquelicot Require Import Coquelicot.
From Verif Require Import Outcome RBool GeoModel GeoSpec GeoProofs ExpProofs Se3Proofs JacSo3 Lin TypesModel StateModel.
From Verif Require Import ManifoldSpec ManifoldProofs Calc3 ImuModel PropModel PropSpec.
Import ListNotations.
Open Scope R_scope.

Lemma csum_mcols n A H d : csum n (mcols A H) d = m3v A (csum n H d).
Proof.
  unfold csum, mcols. apply v3_ext; cbn [m3v vx vy vz]; rewrite <- !sumn_scal, <- !sumn_plus; apply sumn_ext; intros; ring.
Qed.
Lemma H_D_spec m w d : csum 6 (compute_H_D m w) d = m3v (Dm m d) w.
Proof. destruct m; apply v3_ext; cbv [csum sumn compute_H_D cols_of nth e1 e2 e3 v3scal vx vy vz Dm m3v m00 m01 m02 m10 m11 m12 m20 m21 m22]; ring. Qed.
Lemma H_Tg_spec a d : csum 9 (compute_H_Tg a) d = m3v (Tg_of d) a.
Proof. apply v3_ext; cbv [csum sumn compute_H_Tg cols_of nth e1 e2 e3 v3scal vx vy vz Tg_of m3v m00 m01 m02 m10 m11 m12 m20 m21 m22]; ring. Qed.

Definition from (k : nat) (e : vec) : vec := fun i => e (k + i)%nat.

(** F as an assembly of arbitrary blocks, for the discrete method *)
Definition asmD (x : pst) (b1 b2 b3' b4 b6 b7 b8 b10 : m3) (c1 c2 c3 c4 c5 : cols) (d1 d2 d3 d4 : m3) : mat :=
  let F := mzero in
  let F := put3 F th_id th_id b1 in
  let F := put3 F th_id bg_id b2 in
  let F := put3 F th_id ba_id b3' in
  let F := put3 F p_id th_id b4 in
  let F := put1 F p_id 3 in
  let F := put3 F p_id v_id b6 in
  let F := put3 F p_id ba_id b7 in
  let F := put3 F v_id th_id b8 in
  let F := put1 F v_id 3 in
  let F := put3 F v_id ba_id b10 in
  let F := put1 F bg_id 3 in
  let F := put1 F ba_id 3 in
  let F := ifid (Dw_id x) (fun id F => let F := putc F th_id id 6 c1 in put1 F id 6) F in
  let F := ifid (Da_id x) (fun id F =>
     let F := putc F th_id id 6 c2 in let F := putc F p_id id 6 c3 in let F := putc F v_id id 6 c4 in put1 F id 6) F in
  let F := ifid (Tg_id x) (fun id F => let F := putc F th_id id 9 c5 in put1 F id 9) F in
  let F := ifid (th_atoI_id x) (fun id F =>
     let F := put3 F th_id id d1 in let F := put3 F p_id id d2 in let F := put3 F v_id id d3 in put1 F id 3) F in
  let F := ifid (th_wtoI_id x) (fun id F => let F := put3 F th_id id d4 in put1 F id 3) F in
  F.

Definition eDw (x : pst) (e : vec) : vec := if ps_calib x then from 15 e else fun _ => 0.
Definition eDa (x : pst) (e : vec) : vec := if ps_calib x then from 21 e else fun _ => 0.
Definition eTg (x : pst) (e : vec) : vec := if ps_calib x && ps_gsens x then from 27 e else fun _ => 0.
Definition eth (x : pst) (e : vec) : v3 := rows3 e (if ps_gsens x then 36 else 27).
Definition ethA (x : pst) (e : vec) : v3 := match ps_calib x, ps_model x with true, RPNG => eth x e | _, _ => v3zero end.
Definition ethW (x : pst) (e : vec) : v3 := match ps_calib x, ps_model x with true, KALIBR => eth x e | _, _ => v3zero end.

(** rows 9.. of F below [k] are rows of the identity, from [k] on they are still zero *)
Definition good (F : mat) (k : nat) : Prop :=
  forall i j, ((9 <= i < k)%nat -> F i j = mid i j) /\ ((9 <= i)%nat -> (k <= i)%nat -> F i j = 0).
Lemma good_0 : good mzero 9.
Proof. intros i j. split; intros; [lia|reflexivity]. Qed.
Lemma good_put F k r c n B : (r + 3 <= 9)%nat -> good F k -> good (set_block F r c 3 n B) k.
Proof.
  intros Hr G i j. unfold set_block. destruct (G i j) as [A C].
  destruct (Nat.leb_spec r i), (Nat.ltb_spec i (r + 3)); cbn [andb]; split; intros; try lia; auto.
Qed.
Lemma good_put_id F k r n : (r + n <= 9)%nat -> good F k -> good (put1 F r n) k.
Proof.
  intros Hr G i j. unfold put1, set_block. destruct (G i j) as [A C].
  destruct (Nat.leb_spec r i), (Nat.ltb_spec i (r + n)); cbn [andb]; split; intros; try lia; auto.
Qed.
Lemma good_put1 F k k' n : (9 <= k)%nat -> k' = (k + n)%nat -> good F k -> good (put1 F k n) k'.
Proof.
  intros Hk -> G i j. destruct (G i j) as [A C]. unfold put1, set_block.
  destruct (Nat.leb_spec k i) as [H1|H1]; cbn [andb]; [|split; intros; [apply A; lia|lia]].
  destruct (Nat.ltb_spec i (k + n)) as [H2|H2]; cbn [andb]; [|split; intros; [lia|apply C; lia]].
  split; intros; [|lia]. unfold mid.
  destruct (Nat.leb_spec k j) as [H3|H3]; cbn [andb].
  - destruct (Nat.ltb_spec j (k + n)) as [H4|H4].
    + destruct (Nat.eqb_spec i j), (Nat.eqb_spec (i - k) (j - k)); try lia; auto.
    + rewrite C by lia. destruct (Nat.eqb_spec i j); [lia|auto].
  - rewrite C by lia. destruct (Nat.eqb_spec i j); [lia|auto].
Qed.
Lemma good_rows F N e : good F N -> forall i, (9 <= i < N)%nat -> mvec N F e i = e i.
Proof.
  intros G i Hi. unfold mvec. rewrite (sumn_delta N i); [|lia|].
  - destruct (G i i) as [A _]. rewrite A by lia. unfold mid. rewrite Nat.eqb_refl. ring.
  - intros l Hl Hne. destruct (G i l) as [A _]. rewrite A by lia. unfold mid.
    destruct (Nat.eqb_spec i l); [lia|ring].
Qed.
Ltac goodt := cbv [ps_calib ps_gsens ps_model andb ifid Dw_id Da_id Tg_id th_last th_wtoI_id th_atoI_id th_id p_id v_id bg_id ba_id put3 putc];
  repeat first [exact good_0 | apply good_put; [lia|] | apply good_put_id; [lia|] | eapply good_put1; [lia|reflexivity|] ].

(** ** rows of an assembled matrix times a vector, block by block *)
Definition zero_at (F : mat) (r c n : nat) : Prop := forall i j, (i < 3)%nat -> (j < n)%nat -> F (r + i)%nat (c + j)%nat = 0.
Lemma zero_at_rows F r c n : zero_at F r c n ->
  (forall j, (j < n)%nat -> F r (c + j)%nat = 0) /\ (forall j, (j < n)%nat -> F (S r) (c + j)%nat = 0) /\ (forall j, (j < n)%nat -> F (S (S r)) (c + j)%nat = 0).
Proof.
  intros Z. split; [|split]; intros j Hj.
  - specialize (Z 0%nat j ltac:(lia) Hj). rewrite Nat.add_0_r in Z. exact Z.
  - replace (S r) with (r + 1)%nat by lia. apply (Z 1%nat j); lia.
  - replace (S (S r)) with (r + 2)%nat by lia. apply (Z 2%nat j); lia.
Qed.
Lemma zero_at_mzero r c n : zero_at mzero r c n.
Proof. intros i j _ _. reflexivity. Qed.
Lemma zero_at_block F r c n r' c' m n' B :
  (r' + m <= r \/ r + 3 <= r' \/ c' + n' <= c \/ c + n <= c')%nat -> zero_at F r c n -> zero_at (set_block F r' c' m n' B) r c n.
Proof.
  intros H Z i j Hi Hj. unfold set_block.
  destruct (Nat.leb_spec r' (r + i)), (Nat.ltb_spec (r + i) (r' + m)), (Nat.leb_spec c' (c + j)), (Nat.ltb_spec (c + j) (c' + n')); cbn [andb]; try (apply Z; auto).
  lia.
Qed.
Lemma mvec_block_other N F r c m n B e i : (i < r \/ r + m <= i)%nat -> mvec N (set_block F r c m n B) e i = mvec N F e i.
Proof.
  intros H. unfold mvec. apply sumn_ext; intros j Hj. unfold set_block.
  destruct (Nat.leb_spec r i), (Nat.ltb_spec i (r + m)); cbn [andb]; auto. lia.
Qed.
Lemma mvec_block N F r c m n B e i : (c + n <= N)%nat -> (r <= i < r + m)%nat -> (forall j, (j < n)%nat -> F i (c + j)%nat = 0) ->
  mvec N (set_block F r c m n B) e i = mvec N F e i + sumn n (fun j => B (i - r)%nat j * e (c + j)%nat).
Proof.
  intros HN Hi Hz. unfold mvec.
  replace N with (c + n + (N - c - n))%nat by lia. rewrite !sumn_add.
  rewrite (sumn_ext c (fun j => set_block F r c m n B i j * e j) (fun j => F i j * e j)).
  2:{ intros j Hj. unfold set_block. destruct (Nat.leb_spec c j); [lia|]. rewrite !andb_false_r. reflexivity. }
  rewrite (sumn_ext (N - c - n) (fun j => set_block F r c m n B i (c + n + j)%nat * e (c + n + j)%nat) (fun j => F i (c + n + j)%nat * e (c + n + j)%nat)).
  2:{ intros j Hj. unfold set_block. destruct (Nat.ltb_spec (c + n + j) (c + n)); [lia|]. rewrite !andb_false_r. reflexivity. }
  rewrite (sumn_ext n (fun j => set_block F r c m n B i (c + j)%nat * e (c + j)%nat) (fun j => B (i - r)%nat j * e (c + j)%nat)).
  2:{ intros j Hj. unfold set_block. destruct (Nat.leb_spec r i), (Nat.ltb_spec i (r + m)), (Nat.leb_spec c (c + j)), (Nat.ltb_spec (c + j) (c + n)); try lia.
      cbn [andb]. replace (c + j - c)%nat with j by lia. reflexivity. }
  rewrite (sumn_zero n (fun j => F i (c + j)%nat * e (c + j)%nat)); [lra|]. intros j Hj. rewrite Hz by auto. ring.
Qed.
Lemma row_zero N e r : rows3 (mvec N mzero e) r = v3zero.
Proof. unfold rows3, mvec, mzero. apply v3_ext; cbn [vx vy vz v3zero]; apply sumn_zero; intros; ring. Qed.
Lemma row_other N F r' c m n B e r : (r' + m <= r \/ r + 3 <= r')%nat -> rows3 (mvec N (set_block F r' c m n B) e) r = rows3 (mvec N F e) r.
Proof. intros H. unfold rows3. rewrite !mvec_block_other by lia. reflexivity. Qed.
Lemma row_put3 N F r c A e : (c + 3 <= N)%nat -> zero_at F r c 3 ->
  rows3 (mvec N (put3 F r c A) e) r = v3add (rows3 (mvec N F e) r) (m3v A (rows3 e c)).
Proof.
  intros HN Z. unfold put3, rows3.
  destruct (zero_at_rows _ _ _ _ Z) as (Z0 & Z1 & Z2). rewrite !mvec_block by (try lia; auto).
  replace (r - r)%nat with 0%nat by lia. replace (S r - r)%nat with 1%nat by lia. replace (S (S r) - r)%nat with 2%nat by lia.
  cbn [sumn]. replace (c + 0)%nat with c by lia. replace (c + 1)%nat with (S c) by lia. replace (c + 2)%nat with (S (S c)) by lia.
  apply v3_ext; cbv [v3add m3v vx vy vz b3 vnth mrow]; ring.
Qed.
Lemma row_putc N F r c n H e : (c + n <= N)%nat -> zero_at F r c n ->
  rows3 (mvec N (putc F r c n H) e) r = v3add (rows3 (mvec N F e) r) (csum n H (from c e)).
Proof.
  intros HN Z. unfold putc, rows3.
  destruct (zero_at_rows _ _ _ _ Z) as (Z0 & Z1 & Z2). rewrite !mvec_block by (try lia; auto).
  replace (r - r)%nat with 0%nat by lia. replace (S r - r)%nat with 1%nat by lia. replace (S (S r) - r)%nat with 2%nat by lia.
  reflexivity.
Qed.
Lemma row_put1 N F r e : (r + 3 <= N)%nat -> zero_at F r r 3 ->
  rows3 (mvec N (put1 F r 3) e) r = v3add (rows3 (mvec N F e) r) (rows3 e r).
Proof.
  intros HN Z. unfold put1, rows3.
  destruct (zero_at_rows _ _ _ _ Z) as (Z0 & Z1 & Z2). rewrite !mvec_block by (try lia; auto).
  replace (r - r)%nat with 0%nat by lia. replace (S r - r)%nat with 1%nat by lia. replace (S (S r) - r)%nat with 2%nat by lia.
  cbn [sumn]. replace (r + 0)%nat with r by lia. replace (r + 1)%nat with (S r) by lia. replace (r + 2)%nat with (S (S r)) by lia.
  apply v3_ext; cbv [v3add m3v vx vy vz mid Nat.eqb]; ring.
Qed.
Lemma csum_0 n H : csum n H (fun _ => 0) = v3zero.
Proof. unfold csum. apply v3_ext; cbn [vx vy vz v3zero]; apply sumn_zero; intros; ring. Qed.
Lemma m3v_0 A : m3v A v3zero = v3zero.
Proof. apply v3_ext; simpl; ring. Qed.
Lemma v3add_0_r a : v3add a v3zero = a.
Proof. apply v3_ext; simpl; ring. Qed.
Lemma v3add_0_l a : v3add v3zero a = a.
Proof. apply v3_ext; simpl; ring. Qed.

Ltac zat := repeat (apply zero_at_block; [lia|]); apply zero_at_mzero.
Ltac rowt := cbv [ps_calib ps_gsens ps_model andb ifid Dw_id Da_id Tg_id th_last th_wtoI_id th_atoI_id th_id p_id v_id bg_id ba_id
    Nat.add eDw eDa eTg eth ethA ethW err_dim];
  repeat first [ rewrite row_zero
    | rewrite row_put3 by first [lia | zat] | rewrite row_putc by first [lia | zat] | rewrite row_put1 by first [lia | zat]
    | match goal with
      | |- context [rows3 (mvec ?N (put3 ?F ?r' ?c ?A) ?e) ?r] => change (put3 F r' c A) with (set_block F r' c 3 3 (b3 A)); rewrite row_other by lia
      | |- context [rows3 (mvec ?N (putc ?F ?r' ?c ?n ?A) ?e) ?r] => change (putc F r' c n A) with (set_block F r' c 3 n (bc A)); rewrite row_other by lia
      | |- context [rows3 (mvec ?N (put1 ?F ?r' ?n) ?e) ?r] => change (put1 F r' n) with (set_block F r' r' n n mid); rewrite row_other by lia
      end ];
  rewrite ?csum_0, ?m3v_0, ?v3add_0_r, ?v3add_0_l; try reflexivity.
Lemma v3add_comm' a b : v3add a b = v3add b a.
Proof. apply v3_ext; simpl; ring. Qed.

Lemma asmD_rows x b1 b2 b3' b4 b6 b7 b8 b10 c1 c2 c3 c4 c5 d1 d2 d3 d4 e :
  let F := asmD x b1 b2 b3' b4 b6 b7 b8 b10 c1 c2 c3 c4 c5 d1 d2 d3 d4 in
  let y := mvec (err_dim x) F e in
  rows3 y 0 = v3add (v3add (v3add (v3add (v3add (v3add (v3add (m3v b1 (rows3 e 0)) (m3v b2 (rows3 e 9))) (m3v b3' (rows3 e 12)))
                 (csum 6 c1 (eDw x e))) (csum 6 c2 (eDa x e))) (csum 9 c5 (eTg x e))) (m3v d1 (ethA x e))) (m3v d4 (ethW x e)) /\
  rows3 y 3 = v3add (v3add (v3add (v3add (v3add (m3v b4 (rows3 e 0)) (rows3 e 3)) (m3v b6 (rows3 e 6))) (m3v b7 (rows3 e 12)))
                 (csum 6 c3 (eDa x e))) (m3v d2 (ethA x e)) /\
  rows3 y 6 = v3add (v3add (v3add (v3add (m3v b8 (rows3 e 0)) (rows3 e 6)) (m3v b10 (rows3 e 12)))
                 (csum 6 c4 (eDa x e))) (m3v d3 (ethA x e)) /\
  (forall i, (9 <= i < err_dim x)%nat -> y i = e i).
Proof.
  destruct x as [md cal gs df im fj dw da tg qw qa]. cbv zeta.
  destruct cal; [destruct gs, md|]; (split; [|split; [|split]]).
  all: try (unfold asmD; rowt; fail).
  all: apply good_rows; unfold asmD, err_dim; goodt.
Qed.
