(** Givens elimination: zero pattern and orthogonality. *)
From Coq Require Import Reals List Arith Lia Lra Bool.
From Verif Require Import RBool Outcome Lin GivensModel GivensSpec StateModel PdInv StateLin StateEkf.
Import ListNotations.
Open Scope R_scope.

(** ** makeGivens *)
Lemma sq_nz x : x <> 0 -> 0 < x * x.
Proof. intros H. destruct (Rtotal_order x 0) as [?|[?|?]]; nra. Qed.

Lemma make_givens_spec p q : let '(c, s) := make_givens p q in
  c * c + s * s = 1 /\ s * p + c * q = 0.
Proof.
  unfold make_givens.
  assert (X : forall t, 0 <= 1 + t * t) by (intros; nra).
  assert (Y : forall t, sqrt (1 + t * t) <> 0).
  { intros t E. apply sqrt_eq_0 in E; auto. nra. }
  destruct (Reqb_spec q 0) as [->|Hq].
  { destruct (Rltb p 0); split; ring. }
  destruct (Reqb_spec p 0) as [->|Hp].
  { destruct (Rltb q 0); split; ring. }
  destruct (Rltb (Rabs q) (Rabs p)).
  - set (t := q / p). pose proof (X t) as X1. pose proof (Y t) as Y1. pose proof (sqrt_sqrt _ X1) as Z1.
    assert (Z2 : 1 + t * t <> 0) by nra.
    set (u := if Rltb p 0 then _ else _).
    assert (Hu : u * u = 1 + t * t) by (unfold u; destruct (Rltb p 0); nra).
    assert (Hu0 : u <> 0) by (intros E; rewrite E in Hu; lra).
    split.
    + replace (/ u * / u + - t * / u * (- t * / u)) with ((1 + t * t) / (u * u)) by (field; auto).
      rewrite Hu. field; auto.
    + unfold t. field. auto.
  - set (t := p / q). pose proof (X t) as X1. pose proof (Y t) as Y1. pose proof (sqrt_sqrt _ X1) as Z1.
    assert (Z2 : 1 + t * t <> 0) by nra.
    set (u := if Rltb q 0 then _ else _).
    assert (Hu : u * u = 1 + t * t) by (unfold u; destruct (Rltb q 0); nra).
    assert (Hu0 : u <> 0) by (intros E; rewrite E in Hu; lra).
    split.
    + replace (- t * - / u * (- t * - / u) + - / u * - / u) with ((1 + t * t) / (u * u)) by (field; auto).
      rewrite Hu. field; auto.
    + unfold t. field. auto.
Qed.

(** ** rotations as matrices *)
Definition rotm (g : R * R) (a b : nat) : mat := rot_rows g a b 0 mid.

Lemma rotm_mul r g a b A i j : (a < r)%nat -> (b < r)%nat -> (i < r)%nat ->
  mmul r (rotm g a b) A i j = rot_rows g a b 0 A i j.
Proof.
  intros Ha Hb Hi. unfold mmul, rotm, rot_rows. simpl.
  destruct (i =? a)%nat.
  - rewrite (sumn_ext r _ (fun l => fst g * (mid a l * A l j) - snd g * (mid b l * A l j))) by (intros; ring).
    rewrite sumn_minus, !sumn_scal. change (sumn r (fun i0 => mid a i0 * A i0 j)) with (mmul r mid A a j).
    change (sumn r (fun i0 => mid b i0 * A i0 j)) with (mmul r mid A b j). rewrite !mmul_id_l by auto. ring.
  - destruct (i =? b)%nat.
    + rewrite (sumn_ext r _ (fun l => snd g * (mid a l * A l j) + fst g * (mid b l * A l j))) by (intros; ring).
      rewrite sumn_plus, !sumn_scal. change (sumn r (fun i0 => mid a i0 * A i0 j)) with (mmul r mid A a j).
      change (sumn r (fun i0 => mid b i0 * A i0 j)) with (mmul r mid A b j). rewrite !mmul_id_l by auto. ring.
    + apply (mmul_id_l r A i j Hi).
Qed.

Lemma rotm_vec r g a b x i : (a < r)%nat -> (b < r)%nat -> (i < r)%nat ->
  mvec r (rotm g a b) x i = rot_vec g a b x i.
Proof.
  intros Ha Hb Hi. exact (rotm_mul r g a b (fun i _ => x i) i 0%nat Ha Hb Hi).
Qed.

Lemma rotm_tr g a b i j : a <> b -> mtr (rotm g a b) i j = rotm (fst g, - snd g) a b i j.
Proof.
  intros H. unfold mtr, rotm, rot_rows, mid. simpl.
  repeat match goal with |- context[Nat.eqb ?x ?y] => destruct (Nat.eqb_spec x y); subst end; try lia; try ring.
Qed.

Lemma rotm_self r g a b : a <> b -> (a < r)%nat -> (b < r)%nat -> fst g * fst g + snd g * snd g = 1 ->
  meq r r (mmul r (rotm g a b) (mtr (rotm g a b))) mid.
Proof.
  intros Hab Ha Hb Hg i j Hi Hj. rewrite rotm_mul by auto.
  unfold rot_rows, mtr, rotm, rot_rows, mid. simpl.
  repeat match goal with |- context[Nat.eqb ?x ?y] => destruct (Nat.eqb_spec x y); subst end; try lia; try lra; nra.
Qed.

Lemma orth_rotm r g a b : a <> b -> (a < r)%nat -> (b < r)%nat -> fst g * fst g + snd g * snd g = 1 ->
  orth r (rotm g a b).
Proof.
  intros Hab Ha Hb Hg. split; [apply rotm_self; auto|].
  intros i j Hi Hj.
  rewrite (mmul_ext r (mtr (rotm g a b)) (rotm (fst g, - snd g) a b) (rotm g a b)
             (mtr (rotm (fst g, - snd g) a b))).
  - apply rotm_self; auto. simpl. lra.
  - intros; apply rotm_tr; auto.
  - intros l _. unfold mtr. rewrite <- rotm_tr by auto. reflexivity.
Qed.

Lemma orth_mid r : orth r mid.
Proof.
  split; intros i j Hi Hj.
  - rewrite mmul_id_l by auto. unfold mtr, mid. rewrite Nat.eqb_sym. reflexivity.
  - rewrite mmul_id_r by auto. unfold mtr, mid. rewrite Nat.eqb_sym. reflexivity.
Qed.

Lemma mtr_mmul r A B i j : mtr (mmul r A B) i j = mmul r (mtr B) (mtr A) i j.
Proof. unfold mtr at 1. apply mmul_tr. Qed.

Lemma orth_mmul r A B : orth r A -> orth r B -> orth r (mmul r A B).
Proof.
  intros [A1 A2] [B1 B2]. split; intros i j Hi Hj.
  - rewrite (mmul_ext r _ (mmul r A B) _ (mmul r (mtr B) (mtr A))) by (intros; auto; apply mtr_mmul).
    rewrite mmul_assoc.
    rewrite (mmul_ext r A A _ (mtr A)); [apply A1; auto|auto|]. intros l Hl. rewrite <- mmul_assoc.
    rewrite (mmul_ext r _ mid _ (mtr A)); [apply mmul_id_l; auto| |auto]. intros k Hk. apply B1; auto.
  - rewrite (mmul_ext r _ (mmul r (mtr B) (mtr A)) _ (mmul r A B)) by (intros; auto; apply mtr_mmul).
    rewrite mmul_assoc.
    rewrite (mmul_ext r (mtr B) (mtr B) _ B); [apply B2; auto|auto|]. intros l Hl. rewrite <- mmul_assoc.
    rewrite (mmul_ext r _ mid _ B); [apply mmul_id_l; auto| |auto]. intros k Hk. apply A2; auto.
Qed.

(** ** the elimination loops *)
Definition zpat (r n m : nat) (F : mat) : Prop :=
  (forall i j, (j < n)%nat -> (j < i < r)%nat -> F i j = 0) /\
  (forall i, (m <= i < r)%nat -> (n < i)%nat -> F i n = 0).

Definition tr_by (r : nat) (s0 s : mat * mat * vec) : Prop :=
  exists G, orth r G /\
    (forall i j, (i < r)%nat -> fst (fst s) i j = mmul r G (fst (fst s0)) i j) /\
    (forall i j, (i < r)%nat -> snd (fst s) i j = mmul r G (snd (fst s0)) i j) /\
    (forall i, (i < r)%nat -> snd s i = mvec r G (snd s0) i).

Lemma tr_by_refl r s : tr_by r s s.
Proof.
  exists mid. split; [apply orth_mid|]. split; [|split]; intros.
  - rewrite mmul_id_l; auto.
  - rewrite mmul_id_l; auto.
  - rewrite mid_mvec; auto.
Qed.

Lemma nullspace_step_inv r n m s0 s : (n < m)%nat -> (m < r)%nat -> zpat r n (S m) (fst (fst s)) ->
  tr_by r s0 s ->
  zpat r n m (fst (fst (nullspace_step s (n, m)))) /\ tr_by r s0 (nullspace_step s (n, m)).
Proof.
  intros Hnm Hm [Z1 Z2] (G & HG & G1 & G2 & G3). destruct s as [[F X] v]. simpl in *.
  pose proof (make_givens_spec (F (m - 1)%nat n) (F m n)) as Hg.
  set (g := make_givens _ _) in *. destruct g as [c s] eqn:Eg. destruct Hg as [Hg1 Hg2]. simpl.
  split.
  - split.
    + intros i j Hj Hi. unfold rot_rows. destruct (Nat.ltb_spec j n); [|lia]. apply Z1; lia.
    + intros i Hi Hn. unfold rot_rows. rewrite Nat.ltb_irrefl.
      destruct (Nat.eqb_spec i (m - 1)); [lia|]. destruct (Nat.eqb_spec i m); [exact Hg2|].
      apply Z2; lia.
  - exists (mmul r (rotm (c, s) (m - 1) m) G). split; [|split; [|split]].
    + apply orth_mmul; auto. apply orth_rotm; simpl; auto; lia.
    + intros i j Hi. rewrite mmul_assoc.
      rewrite (mmul_ext r _ (rotm (c, s) (m - 1) m) _ F); [|auto|intros; symmetry; apply G1; auto].
      rewrite rotm_mul by lia. simpl. unfold rot_rows.
      destruct (Nat.ltb_spec j n); [|reflexivity]. simpl.
      destruct (Nat.eqb_spec i (m - 1)); [|destruct (Nat.eqb_spec i m); [|reflexivity]]; subst i; simpl;
        rewrite (Z1 (m - 1)%nat j), (Z1 m j) by lia; ring.
    + intros i j Hi. rewrite mmul_assoc.
      rewrite (mmul_ext r _ (rotm (c, s) (m - 1) m) _ X); [|auto|intros; symmetry; apply G2; auto].
      rewrite rotm_mul by lia. reflexivity.
    + intros i Hi. rewrite mvec_mmul.
      rewrite (mvec_ext r _ (rotm (c, s) (m - 1) m) _ v); [|auto|intros l Hl; symmetry; apply G3; auto].
      rewrite rotm_vec by lia. reflexivity.
Qed.

Lemma inner_inv r n s0 : forall K s, (K <= r - 1 - n)%nat -> zpat r n r (fst (fst s)) -> tr_by r s0 s ->
  let s' := fold_left nullspace_step (map (fun k => (n, (r - 1 - k)%nat)) (seq 0 K)) s in
  zpat r n (r - K) (fst (fst s')) /\ tr_by r s0 s'.
Proof.
  induction K as [|K IH]; intros s HK HZ HT.
  - simpl. rewrite Nat.sub_0_r. auto.
  - rewrite seq_S, map_app, fold_left_app. simpl.
    destruct (IH s) as [A B]; [lia|auto|auto|]. simpl in A, B.
    replace (r - S K)%nat with (r - 1 - K)%nat by lia.
    apply nullspace_step_inv; auto; try lia.
    replace (S (r - 1 - K)) with (r - K)%nat by lia. auto.
Qed.

Lemma outer_inv r s0 : forall cols s, zpat r 0 r (fst (fst s)) -> tr_by r s0 s ->
  let s' := fold_left nullspace_step (sched r cols) s in
  zpat r cols r (fst (fst s')) /\ tr_by r s0 s'.
Proof.
  unfold sched. induction cols as [|cols IH]; intros s HZ HT.
  - simpl. auto.
  - rewrite seq_S, flat_map_app, fold_left_app. simpl. rewrite app_nil_r.
    destruct (IH s HZ HT) as [A B]. simpl in A, B.
    destruct (inner_inv r cols s0 (r - 1 - cols) _ (le_n _) A B) as [[C1 C2] D].
    split; auto. split.
    + intros i j Hj Hi. destruct (Nat.eq_dec j cols) as [->|]; [|apply C1; lia]. apply C2; lia.
    + intros; lia.
Qed.

Lemma elimination r cols F X v :
  let s' := fold_left nullspace_step (sched r cols) (F, X, v) in
  (forall i j, (j < cols)%nat -> (j < i < r)%nat -> fst (fst s') i j = 0) /\ tr_by r (F, X, v) s'.
Proof.
  assert (Z : zpat r 0 r F) by (split; intros; lia).
  destruct (outer_inv r (F, X, v) cols (F, X, v) Z (tr_by_refl _ _)) as [[A _] B].
  split; auto.
Qed.

Lemma compress_proj l : forall F X v,
  let s := fold_left nullspace_step l (F, X, v) in
  fold_left compress_step l (F, v) = (fst (fst s), snd s).
Proof.
  induction l as [|[n m] l IH]; simpl; intros F X v; auto.
Qed.

Lemma init_step_eq s nm : StateModel.init_step s nm = nullspace_step s nm.
Proof. destruct s as [[? ?] ?], nm. reflexivity. Qed.

(** ** left-nullspace projection *)
Lemma gram_orth r G A B i j : orth r G -> mmul r (mtr (mmul r G A)) (mmul r G B) i j = mmul r (mtr A) B i j.
Proof.
  intros [_ HG].
  rewrite (mmul_ext r _ (mmul r (mtr A) (mtr G)) _ (mmul r G B)); [|intros; apply mtr_mmul|auto].
  rewrite mmul_assoc. apply mmul_ext; auto. intros l Hl. rewrite <- mmul_assoc.
  rewrite (mmul_ext r _ mid _ B); [apply mmul_id_l; auto|intros; apply HG; auto|auto].
Qed.

Lemma nullspace_full Hf Hx res Hf' Hx' res' :
  nullspace_project Hf Hx res = Ok (Hf', Hx', res') ->
  let r := dr Hf in let k := dc Hf in let w := dc Hx in
  (k <= r)%nat /\ dr Hx = r /\ dn res = r /\
  dr Hx' = (r - k)%nat /\ dc Hx' = w /\ dn res' = (r - k)%nat /\
  exists G, orth r G /\
    let N := fun i j => G (k + j)%nat i in
    orthonormal_cols r (r - k) N /\
    meq (r - k) k (mmul r (mtr N) (dm Hf)) mzero /\
    meq (r - k) w (dm Hx') (mmul r (mtr N) (dm Hx)) /\
    veq (r - k) (dv res') (mvec r (mtr N) (dv res)) /\
    (forall i j, (j < k)%nat -> (j < i < r)%nat -> mmul r G (dm Hf) i j = 0).
Proof.
  unfold nullspace_project. intros H.
  destruct (Nat.leb_spec (dc Hf) (dr Hf)); [|discriminate].
  destruct (Nat.eqb_spec (dr Hx) (dr Hf)); [|discriminate].
  destruct (Nat.eqb_spec (dn res) (dr Hf)); [|discriminate]. simpl in H.
  destruct (fold_left nullspace_step _ _) as [[F X] v] eqn:E. injection H as <- <- <-. simpl.
  do 3 (split; [auto; lia|]). split; [lia|]. split; [reflexivity|]. split; [lia|].
  destruct (elimination (dr Hf) (dc Hf) (dm Hf) (dm Hx) (dv res)) as [Z (G & HG & G1 & G2 & G3)].
  rewrite E in *. simpl in *. exists G. split; auto.
  split.
  { intros i j Hi Hj. destruct HG as [HG _].
    transitivity (mmul (dr Hf) G (mtr G) (dc Hf + i)%nat (dc Hf + j)%nat); [reflexivity|].
    rewrite HG by lia. unfold mid. destruct (Nat.eqb_spec (dc Hf + i) (dc Hf + j)), (Nat.eqb_spec i j); auto; lia. }
  split.
  { intros i j Hi Hj. transitivity (mmul (dr Hf) G (dm Hf) (dc Hf + i)%nat j); [reflexivity|].
    rewrite <- G1 by lia. apply Z; lia. }
  split.
  { intros i j Hi Hj. apply G2. lia. }
  split.
  { intros i Hi. apply G3. lia. }
  intros i j Hj Hi. rewrite <- G1 by lia. apply Z; lia.
Qed.

(** ** compression *)
Lemma compress_full Hx res Hx' res' : measurement_compress Hx res = Ok (Hx', res') ->
  let r := dr Hx in let c := dc Hx in
  ((r <= c)%nat -> Hx' = Hx /\ res' = res) /\
  ((c < r)%nat -> dr Hx' = c /\ dc Hx' = c /\ dn res' = c /\ dn res = r /\
     exists G, orth r G /\
       (forall i j, (i < c)%nat -> (j < c)%nat -> dm Hx' i j = mmul r G (dm Hx) i j) /\
       (forall i, (i < c)%nat -> dv res' i = mvec r G (dv res) i) /\
       (forall i j, (j < c)%nat -> (j < i < r)%nat -> mmul r G (dm Hx) i j = 0)).
Proof.
  unfold measurement_compress. intros H. simpl.
  destruct (Nat.leb_spec (dr Hx) (dc Hx)).
  - injection H as <- <-. split; auto. lia.
  - split; [lia|]. intros _.
    destruct (Nat.eqb_spec (dr Hx) (dn res)); [|discriminate].
    rewrite (compress_proj _ _ mzero) in H.
    destruct (elimination (dr Hx) (dc Hx) (dm Hx) mzero (dv res)) as [Z (G & HG & G1 & G2 & G3)].
    set (s := fold_left nullspace_step _ _) in *. destruct s as [[F X] v]. simpl in *.
    injection H as <- <-. simpl. rewrite Nat.min_r by lia.
    do 4 (split; [auto; lia|]). exists G. split; auto.
    split; [intros; apply G1; lia|]. split; [intros; apply G3; lia|].
    intros. rewrite <- G1 by lia. apply Z; auto.
Qed.

Lemma sumn_split c r f : (c <= r)%nat -> (forall i, (c <= i < r)%nat -> f i = 0) -> sumn r f = sumn c f.
Proof.
  intros H Hz. replace r with (c + (r - c))%nat by lia. rewrite sumn_add.
  rewrite (sumn_zero (r - c)); [lra|]. intros i Hi. apply Hz. lia.
Qed.

Lemma compress_info Hx res Hx' res' : measurement_compress Hx res = Ok (Hx', res') ->
  dn res' = dr Hx' \/ (dr Hx <= dc Hx)%nat ->
  dc Hx' = dc Hx /\ (dr Hx' <= dc Hx)%nat /\ (dr Hx' <= dr Hx)%nat /\
  meq (dc Hx) (dc Hx) (mmul (dr Hx') (mtr (dm Hx')) (dm Hx')) (mmul (dr Hx) (mtr (dm Hx)) (dm Hx)) /\
  veq (dc Hx) (mvec (dr Hx') (mtr (dm Hx')) (dv res')) (mvec (dr Hx) (mtr (dm Hx)) (dv res)).
Proof.
  intros H _. destruct (compress_full _ _ _ _ H) as [A B].
  destruct (Nat.le_gt_cases (dr Hx) (dc Hx)) as [Hle|Hgt].
  - destruct (A Hle) as [-> ->]. repeat split; auto; intros i j; auto.
  - destruct (B Hgt) as (D1 & D2 & D3 & D4 & G & HG & G1 & G2 & Z).
    split; [auto|]. split; [lia|]. split; [lia|]. split.
    + intros i j Hi Hj. rewrite D1.
      transitivity (mmul (dr Hx) (mtr (mmul (dr Hx) G (dm Hx))) (mmul (dr Hx) G (dm Hx)) i j).
      2:{ apply gram_orth; auto. }
      unfold mmul at 2. rewrite (sumn_split (dc Hx)); [|lia|].
      * apply sumn_ext. intros l Hl. unfold mtr. rewrite !G1 by auto. reflexivity.
      * intros l Hl. rewrite (Z l j) by lia. ring.
    + intros i Hi. rewrite D1.
      transitivity (mmul (dr Hx) (mtr (mmul (dr Hx) G (dm Hx))) (mmul (dr Hx) G (fun a _ => dv res a)) i 0%nat).
      2:{ rewrite gram_orth by auto. reflexivity. }
      unfold mmul at 1. rewrite (sumn_split (dc Hx)); [|lia|].
      * apply sumn_ext. intros l Hl. unfold mtr. rewrite !G1, G2 by auto. reflexivity.
      * intros l Hl. unfold mtr. rewrite (Z l i) by lia. ring.
Qed.

(** ** triangular systems *)
Lemma tri_left_inv k L B : (forall i j, (j < i < k)%nat -> L i j = 0) ->
  meq k k (mmul k B L) mid -> forall d, (d < k)%nat ->
  L d d <> 0 /\ forall i, (d < i < k)%nat -> B i d = 0.
Proof.
  intros HL HB d. induction d as [d IH] using lt_wf_ind. intros Hd.
  assert (E : forall i, (d <= i < k)%nat -> B i d * L d d = mid i d).
  { intros i Hi. rewrite <- (HB i d) by lia. unfold mmul. symmetry.
    apply (sumn_delta k d (fun l => B i l * L l d)); auto.
    intros l Hl Hne. destruct (Nat.lt_ge_cases l d).
    - destruct (IH l) as [_ X]; [lia|lia|]. rewrite X by lia. ring.
    - rewrite HL by lia. ring. }
  assert (Hn : L d d <> 0).
  { intros Z. specialize (E d). rewrite Z in E. unfold mid in E. rewrite Nat.eqb_refl in E.
    specialize (E ltac:(lia)). lra. }
  split; auto. intros i Hi. specialize (E i ltac:(lia)). unfold mid in E.
  destruct (Nat.eqb_spec i d); [lia|]. destruct (Rmult_integral _ _ E); [auto|contradiction].
Qed.

(** upper triangular with nonzero diagonal: L^T u = 0 only for u = 0 *)
Lemma tri_tr_inj k L u : (forall i j, (j < i < k)%nat -> L i j = 0) -> (forall d, (d < k)%nat -> L d d <> 0) ->
  veq k (mvec k (mtr L) u) (fun _ => 0) -> veq k u (fun _ => 0).
Proof.
  intros HL HD H d. induction d as [d IH] using lt_wf_ind. intros Hd.
  specialize (H d Hd). unfold mvec, mtr in H. rewrite (sumn_delta k d) in H; auto.
  - destruct (Rmult_integral _ _ H) as [E|E]; auto. destruct (HD d Hd E).
  - intros i Hi Hne. destruct (Nat.lt_ge_cases i d).
    + rewrite (IH i) by lia. ring.
    + rewrite HL by lia. ring.
Qed.

Lemma rank_gram_pd r c A : full_col_rank r c A -> pd c (mmul r (mtr A) A).
Proof.
  intros H x Hx. rewrite quad_gram. apply dot_sq_pos.
  destruct (vnz_dec r (mvec c A x)) as [E|E]; auto. exfalso.
  destruct Hx as (i & Hi & Hx). apply Hx. apply (H x E); auto.
Qed.

Lemma rank_left_inv k A : full_col_rank k k A ->
  meq k k (mmul k (mmul k (pdinv k (mmul k (mtr A) A)) (mtr A)) A) mid.
Proof.
  intros H i j Hi Hj. rewrite mmul_assoc. apply pdinv_l; auto using gram_sym, rank_gram_pd.
Qed.

Lemma tri_invertible k L : (forall i j, (j < i < k)%nat -> L i j = 0) -> full_col_rank k k L -> invertible k L.
Proof.
  intros HL HR. pose proof (rank_left_inv k L HR) as HB. set (B := mmul k _ (mtr L)) in HB.
  assert (HD : forall d, (d < k)%nat -> L d d <> 0) by (intros d Hd; apply (tri_left_inv k L B HL HB d Hd)).
  assert (HT : full_col_rank k k (mtr L)) by (intros u Hu; apply (tri_tr_inj k L u HL HD Hu)).
  pose proof (rank_left_inv k (mtr L) HT) as HC. set (C := mmul k (pdinv _ _) _) in HC.
  (* C L^T = I, so L C^T = I *)
  assert (HC' : meq k k (mmul k L (mtr C)) mid).
  { intros i j Hi Hj. rewrite (mmul_tr k). transitivity (mmul k C (mtr L) j i); [reflexivity|].
    rewrite HC by auto. unfold mid. rewrite Nat.eqb_sym. reflexivity. }
  exists B. split; auto.
  assert (E : meq k k B (mtr C)) by (apply (left_inv_unique k L); auto).
  intros i j Hi Hj. rewrite (mmul_ext k L L B (mtr C)); auto.
Qed.

(** rank is kept by the elimination and sits in the top k rows *)
Lemma elim_top_rank r k G A : (k <= r)%nat -> orth r G -> full_col_rank r k A ->
  (forall i j, (j < k)%nat -> (j < i < r)%nat -> mmul r G A i j = 0) ->
  full_col_rank k k (mmul r G A).
Proof.
  intros Hk [HG1 HG2] HR HZ x Hx. apply HR.
  assert (E : forall i, (i < r)%nat -> mvec k (mmul r G A) x i = 0).
  { intros i Hi. destruct (Nat.lt_ge_cases i k).
    - apply Hx; auto.
    - unfold mvec. apply sumn_zero. intros j Hj. rewrite HZ by lia. ring. }
  intros i Hi. rewrite <- (mid_mvec r (mvec k A x) i Hi).
  rewrite (mvec_ext r mid (mmul r (mtr G) G) _ (mvec k A x) i); [|intros; symmetry; apply HG2; auto|intros ? ?; auto].
  rewrite mvec_mmul. unfold mvec at 1. apply sumn_zero. intros l Hl.
  rewrite <- mvec_mmul, E by auto. ring.
Qed.

(** with full column rank, N spans the whole left nullspace *)
Lemma nullspace_complete r k G A y : (k <= r)%nat -> orth r G -> full_col_rank r k A ->
  (forall i j, (j < k)%nat -> (j < i < r)%nat -> mmul r G A i j = 0) ->
  veq k (mvec r (mtr A) y) (fun _ => 0) ->
  let N := fun i j => G (k + j)%nat i in
  exists z, veq r y (mvec (r - k) N z).
Proof.
  intros Hk HG HR HZ Hy N.
  pose proof (elim_top_rank r k G A Hk HG HR HZ) as HT.
  assert (HL : forall i j, (j < i < k)%nat -> mmul r G A i j = 0) by (intros; apply HZ; lia).
  pose proof (rank_left_inv k _ HT) as HB.
  assert (HD : forall d, (d < k)%nat -> mmul r G A d d <> 0) by (intros d Hd; eapply (tri_left_inv k _ _ HL HB d Hd)).
  assert (Hu : veq k (mvec r G y) (fun _ => 0)).
  { apply (tri_tr_inj k (mmul r G A)); auto. intros j Hj. rewrite <- (Hy j Hj).
    destruct HG as [HG1 HG2].
    transitivity (mvec r (mtr (mmul r G A)) (mvec r G y) j).
    { unfold mvec at 1. unfold mvec at 2. symmetry. apply sumn_split; auto.
      intros l Hl. unfold mtr. rewrite HZ by lia. ring. }
    transitivity (mmul r (mtr (mmul r G A)) (mmul r G (fun a _ => y a)) j 0%nat); [reflexivity|].
    rewrite gram_orth by (split; auto). reflexivity. }
  exists (fun j => mvec r G y (k + j)%nat). intros i Hi.
  destruct HG as [HG1 HG2].
  assert (E : y i = mvec r (mmul r (mtr G) G) y i).
  { rewrite <- (mid_mvec r y i Hi) at 1. apply mvec_ext; [intros; symmetry; apply HG2; auto|intros ? ?; auto]. }
  rewrite E, mvec_mmul. unfold mvec at 1. replace r with (k + (r - k))%nat at 1 by lia. rewrite sumn_add.
  rewrite sumn_zero; [|intros l Hl; rewrite (Hu l Hl); ring]. rewrite Rplus_0_l. reflexivity.
Qed.
