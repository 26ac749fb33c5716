(** Proofs for C94 and C95. *)
From Coq Require Import Reals List Arith Bool Lia Lra.
From Verif Require Import RBool Outcome GeoModel GeoSpec GeoProofs DbModel DbProofs FeatModel FeatSpec FeatProofs RetriModel RetriSpec.
Import ListNotations.
Open Scope R_scope.

(** ** one observation *)
Lemma across_is r : v3norm r <> 0 -> let B := skew_x (v3div r (v3norm r)) in m3mul (m3tr B) B = across r.
Proof.
  intros H. cbv zeta. unfold across. rewrite <- norm_sq. pose proof (norm_sq r) as E. destruct r as [x y z]. unfold v3dot in E. cbn [vx vy vz] in E.
  remember (v3norm (V3 x y z)) as n. apply m3_ext; cbn; try (field; exact H); field_simplify; try exact H; apply (Rmult_eq_reg_r (n * n)); try nra; field_simplify; nra.
Qed.
Lemma eye_is B C : eye B C = (cam_R B C, cam_p B C).
Proof. unfold eye, cam_p, cam_R. f_equal. rewrite m3tr_mul, m3v_mul, !m3v_neg. apply v3_ext; cbn; ring. Qed.
Lemma eye_maps B C P : is_rot (fst B) -> is_rot (fst C) -> m3v (fst (eye B C)) (v3sub P (snd (eye B C))) = v3add (m3v (fst C) (m3v (fst B) (v3sub P (snd B)))) (snd C).
Proof.
  intros HB HC. unfold eye. cbn [fst snd]. rewrite m3v_mul.
  replace (v3sub P _) with (v3add (v3sub P (snd B)) (m3v (m3tr (fst B)) (m3v (m3tr (fst C)) (snd C)))) by (rewrite !m3v_neg; apply v3_ext; cbn; ring).
  destruct HB as (HB & _), HC as (HC & _). rewrite !m3v_add, <- (m3v_mul (fst B) (m3tr (fst B))), HB, m3v_id, <- (m3v_mul (fst C) (m3tr (fst C))), HC, m3v_id. reflexivity.
Qed.
Lemma ray_pos M c n : is_rot M -> 0 < v3norm (ray (M, c, n)).
Proof. intros H. destruct n as [u v]. pose proof (ray_norm (mkView 0 0 M c u v) H) as X. cbn in X. exact X. Qed.
Lemma obs_sys_is M c n : is_rot M -> obs_sys M c n = (across (ray (M, c, n)), m3v (across (ray (M, c, n))) c).
Proof.
  intros H. unfold obs_sys. cbv zeta. pose proof (ray_pos M c n H) as P. destruct n as [u v]. cbn [fst snd ray] in *.
  rewrite across_is by lra. reflexivity.
Qed.

(** ** what the loops do to one feature *)
Lemma last_any {A} (l : list A) : forall a d e, last (a :: l) d = last (a :: l) e.
Proof. induction l as [|b l IH]; intros a d e; [reflexivity|]. exact (IH b d e). Qed.
Section Feature.
Context (solve : m3 -> v3 -> v3) (svals : m3 -> R * R) (o : fopts).
Definition entry (v : meas) (s : option sys) (cur : option sys) : option sys :=
  let '(M, c, n) := v in let e := obs_sys M c n in
  match s with
  | None => match cur with None => Some (fst e, snd e, 1%nat) | Some x => Some x end
  | Some (A, b, k) => Some (m3add (fst e) A, v3add (snd e) b, S k)
  end.
Definition one (s : option sys) (x : option sys * option v3) (v : meas) : option sys * option v3 :=
  let new := entry v s (fst x) in
  (new, match new with Some z => match recover solve svals o (fst (fst v)) (snd (fst v)) z with Some p => Some p | None => snd x end | None => snd x end).
Definition vlist (i : rin) (id cam : nat) (M : m3) (c : v3) (ids : list nat) (pts : list (R * R)) : list meas :=
  match alook (ri_slam i) id, ri_und i cam with
  | None, Some u => map (fun e => (M, c, u (snd e))) (filter (fun e => Nat.eqb (fst e) id) (combine ids pts))
  | _, _ => []
  end.

Lemma append_id old new k e id : alook (append old new k e) id = if Nat.eqb id k then
    match alook old k with None => match alook new k with None => Some (fst e, snd e, 1%nat) | Some x => Some x end | Some (A, b, n) => Some (m3add (fst e) A, v3add (snd e) b, S n) end
  else alook new id.
Proof.
  unfold append. destruct (alook old k) as [[[A b] n]|].
  - rewrite alook_aset. destruct (Nat.eqb_spec id k); reflexivity.
  - destruct (alook new k) eqn:E; [|rewrite alook_aset; destruct (Nat.eqb_spec id k); reflexivity].
    destruct (Nat.eqb_spec id k); [subst; exact E|reflexivity].
Qed.
Lemma obs_step_id old M c k n a a' id : obs_step solve svals o old M c k n a = Ok a' ->
  ra_uv a' = ra_uv a /\
  (alook (ra_new a') id, alook (ra_pos a') id) = if Nat.eqb id k then one (alook old id) (alook (ra_new a) id, alook (ra_pos a) id) (M, c, n) else (alook (ra_new a) id, alook (ra_pos a) id).
Proof.
  unfold obs_step. cbv zeta. intros E. apply obind_ok in E as (s & E1 & E2). injection E2 as <-. cbn [ra_uv ra_new ra_pos]. split; [reflexivity|].
  pose proof (append_id old (ra_new a) k (obs_sys M c n) k) as K. rewrite Nat.eqb_refl in K.
  rewrite append_id. destruct (Nat.eqb_spec id k) as [->|N].
  - unfold one, entry. cbn [fst snd]. rewrite <- K. destruct (alook (append old (ra_new a) k (obs_sys M c n)) k) as [z|] eqn:Ez; [|discriminate E1].
    cbn in E1. injection E1 as <-. destruct (recover solve svals o M c z) as [p|]; [|reflexivity].
    rewrite alook_aset, Nat.eqb_refl. reflexivity.
  - destruct (recover solve svals o M c s) as [p|]; [|reflexivity]. rewrite alook_aset. destruct (Nat.eqb_spec id k); [tauto|reflexivity].
Qed.
Lemma obs_loop_id i old cam M c id : forall pts ids a a', obs_loop solve svals o i old cam M c pts ids a = Ok a' ->
  (alook (ra_new a') id, alook (ra_pos a') id) = fold_left (one (alook old id)) (vlist i id cam M c ids pts) (alook (ra_new a) id, alook (ra_pos a) id).
Proof.
  induction pts as [|pt pts IH]; intros ids a a' E; cbn [obs_loop] in E.
  - injection E as <-. unfold vlist. destruct (alook (ri_slam i) id); [reflexivity|]. destruct (ri_und i cam); [|reflexivity]. destruct ids; reflexivity.
  - apply obind_ok in E as (k & E1 & E). cbv zeta in E. apply obind_ok in E as (a2 & E2 & E3).
    destruct ids as [|k' ids]; [discriminate E1|]. cbn in E1. injection E1 as ->. cbn [tl] in E3.
    set (a1 := if Nat.eqb cam 0 then mkRacc (aset (ra_uv a) k pt) (ra_new a) (ra_pos a) else a) in *.
    assert (Q : ra_new a1 = ra_new a /\ ra_pos a1 = ra_pos a) by (unfold a1; destruct (Nat.eqb cam 0); auto). destruct Q as (Q1 & Q2).
    rewrite (IH _ _ _ E3). unfold vlist. cbn [combine filter fst].
    destruct (alook (ri_slam i) k) eqn:Sk.
    + injection E2 as <-. rewrite Q1, Q2. destruct (alook (ri_slam i) id) eqn:Si; [reflexivity|].
      destruct (Nat.eqb_spec k id) as [->|N]; [congruence|reflexivity].
    + apply obind_ok in E2 as (u & U & E2). destruct (ri_und i cam) as [u'|] eqn:Eu; [|discriminate U]. cbn in U. injection U as ->.
      destruct (obs_step_id _ _ _ _ _ _ _ id E2) as (_ & X). rewrite Q1, Q2 in X. rewrite X.
      destruct (alook (ri_slam i) id) eqn:Si.
      * destruct (Nat.eqb_spec id k) as [->|N]; [congruence|reflexivity].
      * rewrite (Nat.eqb_sym k id). destruct (Nat.eqb_spec id k) as [->|N]; [|reflexivity]. cbn [map fold_left snd]. reflexivity.
Qed.
Lemma cam_loop_id i old cam id a a' : cam_loop solve svals o i old a cam = Ok a' ->
  (alook (ra_new a') id, alook (ra_pos a') id) = fold_left (one (alook old id)) (match alook (ri_slam i) id with Some _ => [] | None => cam_views i id cam end) (alook (ra_new a) id, alook (ra_pos a) id).
Proof.
  unfold cam_loop. intros E. apply obind_ok in E as (B & E1 & E). apply obind_ok in E as (C & E2 & E). apply obind_ok in E as (pts & E3 & E). apply obind_ok in E as (ids & E4 & E).
  unfold cam_views. destruct (ri_clone i (ri_time i)); [|discriminate E1]. destruct (ri_calib i cam); [|discriminate E2].
  destruct (alook (ri_obs i) cam); [|discriminate E3]. destruct (alook (ri_ids i) cam); [|discriminate E4].
  cbn in E1, E2, E3, E4. injection E1 as ->. injection E2 as ->. injection E3 as ->. injection E4 as ->.
  rewrite (obs_loop_id _ _ _ _ _ id _ _ _ _ E). f_equal. unfold vlist. rewrite eye_is. cbn [fst snd]. destruct (alook (ri_slam i) id); [reflexivity|]. destruct (ri_und i cam); reflexivity.
Qed.
Lemma cams_id i old id cams : forall a a', ofold (cam_loop solve svals o i old) cams a = Ok a' ->
  (alook (ra_new a') id, alook (ra_pos a') id) = fold_left (one (alook old id)) (match alook (ri_slam i) id with Some _ => [] | None => flat_map (cam_views i id) cams end) (alook (ra_new a) id, alook (ra_pos a) id).
Proof.
  induction cams as [|c cams IH]; intros a a' E; cbn [ofold] in E.
  - injection E as <-. destruct (alook (ri_slam i) id); reflexivity.
  - apply obind_ok in E as (a1 & E1 & E2). rewrite (IH _ _ E2), (cam_loop_id _ _ _ id _ _ E1). cbn [flat_map].
    destruct (alook (ri_slam i) id); [reflexivity|]. rewrite fold_left_app. reflexivity.
Qed.

(** the positions before the landmarks are added *)
Fixpoint picked (s : sys) (vs : list meas) (p : option v3) : option v3 :=
  match vs with
  | [] => p
  | v :: r => picked s r (match entry v (Some s) None with Some z => match recover solve svals o (fst (fst v)) (snd (fst v)) z with Some q => Some q | None => p end | None => p end)
  end.
Lemma fold_new : forall vs x, fst x <> None -> (forall A b n, fst x = Some (A, b, n) -> n = 1%nat) -> fold_left (one None) vs x = x.
Proof.
  induction vs as [|v vs IH]; intros x H1 H2; [reflexivity|]. cbn [fold_left].
  assert (Q : one None x v = x).
  { destruct x as [[[[A b] n]|] p]; [|exfalso; apply H1; reflexivity]. specialize (H2 A b n eq_refl). subst n. destruct v as [[M c] u]. reflexivity. }
  rewrite Q. apply IH; assumption.
Qed.
Lemma fold_old s : forall vs v x, fold_left (one (Some s)) (v :: vs) x = (entry (last (v :: vs) v) (Some s) None, picked s (v :: vs) (snd x)).
Proof.
  induction vs as [|w vs IH]; intros v x.
  - cbn [fold_left last picked]. unfold one. destruct v as [[M c] u], s as [[A b] k]. cbn [entry fst snd]. reflexivity.
  - change (fold_left (one (Some s)) (v :: w :: vs) x) with (fold_left (one (Some s)) (w :: vs) (one (Some s) x v)). rewrite IH.
    replace (last (w :: vs) w) with (last (v :: w :: vs) v).
    + assert (Q : snd (one (Some s) x v) = match entry v (Some s) None with Some z => match recover solve svals o (fst (fst v)) (snd (fst v)) z with Some q => Some q | None => snd x end | None => snd x end)
        by (unfold one; cbn [snd]; destruct v as [[M c] u], s as [[A b] k]; reflexivity).
      rewrite Q. reflexivity.
    + change (last (v :: w :: vs) v) with (last (w :: vs) v). apply last_any.
Qed.
Lemma one_result i id sid : fold_left (one sid) (views i id) (None, None) =
  match views i id with
  | [] => (None, None)
  | v :: vs => match sid with None => (entry v None None, None) | Some s => (entry (last (v :: vs) v) (Some s) None, picked s (v :: vs) None) end
  end.
Proof.
  destruct (views i id) as [|v vs]; [reflexivity|]. destruct sid as [s|]; [exact (fold_old s vs v (None, None))|].
  cbn [fold_left]. assert (Q : one None (None, None) v = (entry v None None, None)) by (destruct v as [[M c] u]; reflexivity). rewrite Q.
  apply fold_new; destruct v as [[M c] u]; cbn; [discriminate|]. intros A b n H. injection H as _ _ <-. reflexivity.
Qed.

(** ** the call *)
Lemma slam_fold i id : forall l p p', ofold (slam_step i) l p = Ok p' -> (forall k f, In (k, f) l -> sl_id f = k) -> ~ In id (map fst l) -> alook p' id = alook p id.
Proof.
  induction l as [|[k f] l IH]; intros p p' E K N; cbn [ofold] in E; [injection E as <-; reflexivity|].
  apply obind_ok in E as (p1 & E1 & E2). unfold slam_step in E1. cbn [snd] in E1. apply obind_ok in E1 as (q & _ & E1). injection E1 as <-.
  rewrite (IH _ _ E2); [|intros; apply K; right; assumption|intros X; apply N; right; exact X].
  rewrite alook_aset, (K k f (or_introl eq_refl)). destruct (Nat.eqb_spec id k); [subst; exfalso; apply N; left; reflexivity|reflexivity].
Qed.
Lemma alook_none {A} (m : amap A) k : alook m k = None <-> ~ In k (map fst m).
Proof.
  induction m as [|[k' v] m IH]; cbn; [tauto|]. destruct (Nat.eqb_spec k k') as [->|N]; [|rewrite IH; intuition congruence].
  split; [discriminate|]. tauto.
Qed.
Lemma call_id old i x id : retriangulate solve svals o old i = Ok x -> keyed i ->
  let r := fold_left (one (alook old id)) (views i id) (None, None) in
  alook (ro_sys x) id = fst r /\ (alook (ri_slam i) id = None -> alook (ro_pos x) id = snd r).
Proof.
  intros E (_ & K). cbv zeta. unfold retriangulate in E. apply obind_ok in E as (B & _ & E). apply obind_ok in E as (a & Ea & E).
  pose proof (cams_id i old id _ _ _ Ea) as X. cbn [ra_new ra_pos alook] in X. fold (views i id) in X.
  rewrite <- X. cbn [fst snd].
  assert (Q : (exists p, ofold (slam_step i) (ri_slam i) (ra_pos a) = Ok p /\ ro_pos x = p /\ ro_sys x = ra_new a) \/ (ra_pos a = [] /\ ro_pos x = [] /\ ro_sys x = ra_new a)).
  { destruct (ra_pos a) as [|e0 l0] eqn:Ep; [destruct (ri_slam i) as [|e1 l1] eqn:Es|].
    - injection E as <-. right. auto.
    - apply obind_ok in E as (p & E1 & E). apply obind_ok in E as (C & _ & E). injection E as <-. left. exists p. auto.
    - apply obind_ok in E as (p & E1 & E). apply obind_ok in E as (C & _ & E). injection E as <-. left. exists p. auto. }
  destruct Q as [(p & P1 & -> & ->)|(P1 & -> & ->)].
  - split; [reflexivity|]. intros H. apply (slam_fold _ _ _ _ _ P1 K). apply alook_none. exact H.
  - split; [reflexivity|]. intros _. rewrite P1. reflexivity.
Qed.
End Feature.
