(** C85: without noise the true motion solves the linear system. *)
From Coq Require Import Reals List Arith ZArith Bool Sorted Lia Lra.
From Verif Require Import RBool Outcome GeoModel GeoSpec GeoProofs Lin TypesModel ImuModel DbModel DbSpec DbProofs DbThms InitModel PropModel PropSpec CpiModel CpiSpec CpiProofs DynModel DynSpec DynProofs.
Import ListNotations.
Open Scope R_scope.

(** ** looking up a preintegration *)
Lemma preint_keys o data old : forall P lt cs, preint_all o data old lt P = Ok (Some cs) -> map fst cs = P.
Proof.
  induction P as [|t P IH]; intros lt cs E; cbn [preint_all] in E; unfold otry in E.
  - injection E as <-. reflexivity.
  - destruct (Reqb t old).
    + apply obind_ok in E. destruct E as ([r|] & Er & E); [|discriminate]. injection E as <-. cbn [map fst]. f_equal. apply (IH _ _ Er).
    + apply obind_ok in E. destruct E as ([c0|] & _ & E); [|discriminate]. apply obind_ok in E. destruct E as ([c1|] & _ & E); [|discriminate].
      apply obind_ok in E. destruct E as ([r|] & Er & E); [|discriminate]. injection E as <-. cbn [map fst]. f_equal. apply (IH _ _ Er).
Qed.
Lemma preint_in o data old : forall P lt cs, preint_all o data old lt P = Ok (Some cs) -> forall t x, In (t, x) cs ->
  (t = old /\ x = None) \/ (t <> old /\ exists c0 c1, x = Some (c0, c1) /\ preint o data old t = Ok (Some c0)).
Proof.
  induction P as [|u P IH]; intros lt cs E t x Hx; cbn [preint_all] in E; unfold otry in E.
  - injection E as <-. destruct Hx.
  - destruct (Reqb_spec u old) as [->|N].
    + apply obind_ok in E. destruct E as ([r|] & Er & E); [|discriminate]. injection E as <-. destruct Hx as [Hx|Hx]; [injection Hx as <- <-; auto|apply (IH _ _ Er _ _ Hx)].
    + apply obind_ok in E. destruct E as ([c0|] & E0 & E); [|discriminate]. apply obind_ok in E. destruct E as ([c1|] & _ & E); [|discriminate].
      apply obind_ok in E. destruct E as ([r|] & Er & E); [|discriminate]. injection E as <-. destruct Hx as [Hx|Hx]; [|apply (IH _ _ Er _ _ Hx)].
      injection Hx as <- <-. right. split; [exact N|]. exists c0, c1. auto.
Qed.
Lemma find_key (cs : cpis) t : In t (map fst cs) -> exists x, find (fun e => Reqb (fst e) t) cs = Some (t, x) /\ In (t, x) cs.
Proof.
  induction cs as [|[u x] cs IH]; intros H; [destruct H|]. cbn [find fst]. destruct (Reqb_spec u t) as [->|N]; [exists x; split; [reflexivity|left; reflexivity]|].
  destruct H as [H|H]; [contradiction|]. destruct (IH H) as (y & A & B). exists y. split; [exact A|right; exact B].
Qed.
Lemma preint_run o data ta tb c : preint o data ta tb = Ok (Some c) ->
  exists l, init_select_imu_readings data (ta + yo_dt o) (tb + yo_dt o) = Ok l /\ c = cpi_run (cpi_new true (yo_Qc o) (yo_bg o) (yo_ba o)) (pairs_of l).
Proof.
  unfold preint. intros E. apply obind_ok in E. destruct E as (l & El & E). destruct (length l <? 2)%nat; [discriminate|]. destruct (Rltb _ _); [discriminate|].
  injection E as <-. exists l. auto.
Qed.
(** what is looked up is the motion from the first pose *)
Lemma cpi_at_motion o data old P cs g pos t : preint_all o data old 0 P = Ok (Some cs) -> travels o data old g pos P -> is_rot (bo_R (pos old)) -> In t P ->
  let '(DT, Rk, al, be) := cpi_at cs t in let x := pos old in let y := pos t in
  bo_R y = m3mul Rk (bo_R x) /\
  bo_v y = v3add (v3sub (bo_v x) (v3scal DT g)) (m3v (m3tr (bo_R x)) be) /\
  bo_p y = v3add (v3sub (v3add (bo_p x) (v3scal DT (bo_v x))) (v3scal (DT ^ 2 / 2) g)) (m3v (m3tr (bo_R x)) al).
Proof.
  intros E Tr Q Ht. unfold cpi_at. destruct (find_key cs t) as (x & -> & I); [rewrite (preint_keys _ _ _ _ _ _ E); exact Ht|].
  destruct (preint_in _ _ _ _ _ _ E t x I) as [(-> & ->)|(N & c0 & c1 & -> & Ep)].
  - split; [symmetry; apply m3mul_id_l|]. split; apply v3_ext; simpl; field.
  - apply preint_run in Ep. destruct Ep as (l & El & ->). destruct (Tr t l Ht N El) as [Mv Rt].
    pose proof (means_thm true (yo_Qc o) (yo_bg o) (yo_ba o) g (pairs_of l) (pos old) (pos t) Q Rt Mv) as M. cbv zeta in M. destruct M as (M1 & M2 & M3 & M4 & _).
    rewrite M1. split; [exact M2|]. split; [exact M3|exact M4].
Qed.

(** ** the rows come from observations *)
Lemma cam_rows_in P mk : forall ts ns us r x, length us = length ts -> length ns = length ts -> cam_rows P mk ts ns = Ok r -> In x r ->
  exists t u z, In (t, u, z) (zip3 ts us ns) /\ In t P /\ In x (mk t z).
Proof.
  induction ts as [|t ts IH]; intros ns us r x L1 L2 E Hx; cbn [cam_rows] in E.
  - injection E as <-. destruct Hx.
  - destruct us as [|u us]; [discriminate|]. destruct ns as [|n ns]; [discriminate|]. cbn [length tl] in *. cbn [zip3]. destruct (tfind P t) eqn:T.
    + apply obind_ok in E. destruct E as (r' & E & E'). injection E' as <-. apply in_app_or in Hx. destruct Hx as [Hx|Hx].
      * exists t, u, n. split; [left; reflexivity|]. split; [apply tfind_in, T|exact Hx].
      * destruct (IH ns us r' x) as (t' & u' & z & A & B); auto. exists t', u', z. split; [right; exact A|exact B].
    + destruct (IH ns us r x) as (t' & u' & z & A & B); auto. exists t', u', z. split; [right; exact A|exact B].
Qed.
Lemma feat_rows_in o P cs k f : feat_ok f -> forall cams r x, incl cams (f_ts f) -> feat_rows o P cs k f cams = Ok r -> In x r ->
  exists cam e ob, alook (yo_ext o) cam = Some e /\ In ob (ftrack f cam) /\ In (otime ob) P /\ In x (rows_of cs k e (otime ob) (snd ob)).
Proof.
  intros (Nd & Pa). induction cams as [|[cam ts] cams IH]; intros r x Hi E Hx; cbn [feat_rows] in E; [injection E as <-; destruct Hx|].
  destruct (alook (yo_ext o) cam) as [e|] eqn:Ee; [|discriminate]. apply obind_ok in E. destruct E as (a & Ea & E). apply obind_ok in E. destruct E as (b & Eb & E). injection E as <-.
  apply in_app_or in Hx. destruct Hx as [Hx|Hx]; [|apply (IH b x); auto; intros y Hy; apply Hi; right; auto].
  assert (Ec : alook (f_ts f) cam = Some ts) by (apply alook_in; auto; apply Hi; left; auto). specialize (Pa cam). rewrite Ec in Pa.
  unfold aget in Ea. destruct (alook (f_uvs f) cam) as [us|] eqn:Eu; [|contradiction]. destruct (alook (f_uvn f) cam) as [ns|] eqn:En; [|contradiction]. destruct Pa as [P1 P2].
  destruct (cam_rows_in P _ ts ns us a x P1 P2 Ea Hx) as (t & u & z & A & B & C). exists cam, e, (t, u, z). split; [exact Ee|]. split; [unfold ftrack, aget; rewrite Ec, Eu, En; exact A|]. auto.
Qed.
Lemma all_rows_in o P cs : forall l k r x, (forall id f, In (id, f) l -> feat_ok f) -> all_rows o P cs k l = Ok r -> In x r ->
  exists i id f cam e ob, nth_error l i = Some (id, f) /\ alook (yo_ext o) cam = Some e /\ In ob (ftrack f cam) /\ In (otime ob) P /\ In x (rows_of cs (k + i) e (otime ob) (snd ob)).
Proof.
  induction l as [|[id f] l IH]; intros k r x Hk E Hx; cbn [all_rows] in E; [injection E as <-; destruct Hx|].
  apply obind_ok in E. destruct E as (a & Ea & E). apply obind_ok in E. destruct E as (b & Eb & E). injection E as <-. apply in_app_or in Hx. destruct Hx as [Hx|Hx].
  - destruct (feat_rows_in o P cs k f (Hk id f (or_introl eq_refl)) _ a x (incl_refl _) Ea Hx) as (cam & e & ob & A & B & C & D).
    exists O, id, f, cam, e, ob. rewrite Nat.add_0_r. auto.
  - destruct (IH (S k) b x) as (i & id' & f' & cam & e & ob & A & B); auto; [intros i g Hg; apply (Hk i g); right; auto|].
    exists (S i), id', f', cam, e, ob. replace (k + S i)%nat with (S k + i)%nat by lia. auto.
Qed.

(** ** a row times the unknowns *)
Lemma sumn3 f m : sumn (m + 3) f = sumn m f + (f m + f (S m) + f (S (S m))).
Proof. replace (m + 3)%nat with (S (S (S m))) by lia. cbn [sumn]. lra. Qed.
Lemma sumn_blk n k v x : (k < n)%nat -> sumn (3 * n) (fun j => (if Nat.eqb (j / 3) k then v3nth v (j mod 3) else 0) * x j) =
  vx v * x (3 * k)%nat + vy v * x (S (3 * k)) + vz v * x (S (S (3 * k))).
Proof.
  induction n as [|n IH]; intros Hk; [lia|]. replace (3 * S n)%nat with (3 * n + 3)%nat by lia. rewrite sumn3.
  assert (D : forall c, (c < 3)%nat -> ((3 * n + c) / 3 = n)%nat /\ ((3 * n + c) mod 3 = c)%nat).
  { intros c Hc. split; [symmetry; apply (Nat.div_unique _ _ _ c); lia|symmetry; apply (Nat.mod_unique _ _ n); lia]. }
  pose proof (D 0%nat ltac:(lia)) as [D0 M0]. pose proof (D 1%nat ltac:(lia)) as [D1 M1]. pose proof (D 2%nat ltac:(lia)) as [D2 M2].
  replace (3 * n + 0)%nat with (3 * n)%nat in D0, M0 by lia. replace (3 * n + 1)%nat with (S (3 * n)) in D1, M1 by lia. replace (3 * n + 2)%nat with (S (S (3 * n))) in D2, M2 by lia.
  rewrite D0, D1, D2, M0, M1, M2. destruct (Nat.eqb_spec n k) as [->|N].
  - rewrite sumn_zero; [cbn [v3nth]; lra|]. intros j Hj. assert (j / 3 < k)%nat by (apply Nat.div_lt_upper_bound; lia). destruct (Nat.eqb_spec (j / 3) k); [lia|lra].
  - rewrite IH by lia. lra.
Qed.
Lemma row_dot n r x : (yr_k r < n)%nat -> sumn (3 * n + 6) (fun j => row_entry n r j * x j) =
  v3dot (yr_y r) (v3add (v3sub (seg x (3 * yr_k r)) (v3scal (yr_DT r) (seg x (3 * n)))) (v3scal (yr_DT r ^ 2 / 2) (seg x (3 * n + 3)))).
Proof.
  intros Hk. replace (3 * n + 6)%nat with (3 * n + 3 + 3)%nat by lia. rewrite !sumn3.
  rewrite (sumn_ext (3 * n) _ (fun j => (if Nat.eqb (j / 3) (yr_k r) then v3nth (yr_y r) (j mod 3) else 0) * x j)).
  2:{ intros j Hj. unfold row_entry. destruct (Nat.leb_spec (3 * n + 3) j); [lia|]. destruct (Nat.leb_spec (3 * n) j); [lia|]. reflexivity. }
  rewrite sumn_blk by exact Hk.
  assert (V : forall c, (c < 3)%nat -> row_entry n r (3 * n + c) = - yr_DT r * v3nth (yr_y r) c).
  { intros c Hc. unfold row_entry. destruct (Nat.leb_spec (3 * n + 3) (3 * n + c)); [lia|]. destruct (Nat.leb_spec (3 * n) (3 * n + c)); [|lia]. replace (3 * n + c - 3 * n)%nat with c by lia. reflexivity. }
  assert (G : forall c, (c < 3)%nat -> row_entry n r (3 * n + 3 + c) = 5 / 10 * yr_DT r * yr_DT r * v3nth (yr_y r) c).
  { intros c Hc. unfold row_entry. destruct (Nat.leb_spec (3 * n + 3) (3 * n + 3 + c)); [|lia]. replace (3 * n + 3 + c - (3 * n + 3))%nat with c by lia. reflexivity. }
  pose proof (V 0%nat ltac:(lia)) as V0. pose proof (V 1%nat ltac:(lia)) as V1. pose proof (V 2%nat ltac:(lia)) as V2.
  pose proof (G 0%nat ltac:(lia)) as G0. pose proof (G 1%nat ltac:(lia)) as G1. pose proof (G 2%nat ltac:(lia)) as G2.
  rewrite Nat.add_0_r in V0, G0. replace (3 * n + 1)%nat with (S (3 * n)) in V1 by lia. replace (3 * n + 2)%nat with (S (S (3 * n))) in V2 by lia.
  replace (3 * n + 3 + 1)%nat with (S (3 * n + 3)) in G1 by lia. replace (3 * n + 3 + 2)%nat with (S (S (3 * n + 3))) in G2 by lia.
  rewrite V0, V1, V2, G0, G1, G2. cbn [v3nth]. unfold seg. generalize (3 * yr_k r)%nat (3 * n)%nat (3 * n + 3)%nat. intros a b c. unfold v3dot; simpl. field.
Qed.
Lemma truth_feat x0 g ps k : (k < length ps)%nat -> seg (truth x0 g ps) (3 * k) = m3v (bo_R x0) (v3sub (nth k ps v3zero) (bo_p x0)).
Proof.
  intros Hk. unfold seg.
  assert (T : forall c, (c < 3)%nat -> truth x0 g ps (3 * k + c)%nat = v3nth (m3v (bo_R x0) (v3sub (nth k ps v3zero) (bo_p x0))) c).
  { intros c Hc. unfold truth. destruct (Nat.leb_spec (3 * length ps + 3) (3 * k + c)); [lia|]. destruct (Nat.leb_spec (3 * length ps) (3 * k + c)); [lia|].
    replace ((3 * k + c) / 3)%nat with k by (apply (Nat.div_unique _ _ _ c); lia). replace ((3 * k + c) mod 3)%nat with c by (apply (Nat.mod_unique _ _ k); lia). reflexivity. }
  pose proof (T 0%nat ltac:(lia)) as T0. pose proof (T 1%nat ltac:(lia)) as T1. pose proof (T 2%nat ltac:(lia)) as T2.
  rewrite Nat.add_0_r in T0. replace (3 * k + 1)%nat with (S (3 * k)) in T1 by lia. replace (3 * k + 2)%nat with (S (S (3 * k))) in T2 by lia. rewrite T0, T1, T2.
  apply v3_ext; reflexivity.
Qed.
Lemma truth_vel x0 g ps : seg (truth x0 g ps) (3 * length ps) = m3v (bo_R x0) (bo_v x0).
Proof.
  unfold seg. set (n := length ps).
  assert (T : forall c, (c < 3)%nat -> truth x0 g ps (3 * n + c)%nat = v3nth (m3v (bo_R x0) (bo_v x0)) c).
  { intros c Hc. unfold truth. fold n. destruct (Nat.leb_spec (3 * n + 3) (3 * n + c)); [lia|]. destruct (Nat.leb_spec (3 * n) (3 * n + c)); [|lia]. replace (3 * n + c - 3 * n)%nat with c by lia. reflexivity. }
  pose proof (T 0%nat ltac:(lia)) as T0. pose proof (T 1%nat ltac:(lia)) as T1. pose proof (T 2%nat ltac:(lia)) as T2.
  rewrite Nat.add_0_r in T0. replace (3 * n + 1)%nat with (S (3 * n)) in T1 by lia. replace (3 * n + 2)%nat with (S (S (3 * n))) in T2 by lia. rewrite T0, T1, T2.
  apply v3_ext; reflexivity.
Qed.
Lemma truth_grav x0 g ps : seg (truth x0 g ps) (3 * length ps + 3) = m3v (bo_R x0) g.
Proof.
  unfold seg. set (n := length ps).
  assert (T : forall c, (c < 3)%nat -> truth x0 g ps (3 * n + 3 + c)%nat = v3nth (m3v (bo_R x0) g) c).
  { intros c Hc. unfold truth. fold n. destruct (Nat.leb_spec (3 * n + 3) (3 * n + 3 + c)); [|lia]. replace (3 * n + 3 + c - (3 * n + 3))%nat with c by lia. reflexivity. }
  pose proof (T 0%nat ltac:(lia)) as T0. pose proof (T 1%nat ltac:(lia)) as T1. pose proof (T 2%nat ltac:(lia)) as T2.
  rewrite Nat.add_0_r in T0. replace (3 * n + 3 + 1)%nat with (S (3 * n + 3)) in T1 by lia. replace (3 * n + 3 + 2)%nat with (S (S (3 * n + 3))) in T2 by lia. rewrite T0, T1, T2.
  apply v3_ext; reflexivity.
Qed.
Lemma dot_tr M h u : v3dot (m3v (m3tr M) h) u = v3dot h (m3v M u).
Proof. unfold v3dot; simpl; ring. Qed.
Lemma rot_back Q u : is_rot Q -> m3v Q (m3v (m3tr Q) u) = u.
Proof. intros (H & _). rewrite <- m3v_mul, H. apply v3_ext; simpl; ring. Qed.

Lemma truth_thm o data old P cs l rows g pos ps : (forall id f, In (id, f) l -> feat_ok f) ->
  preint_all o data old 0 P = Ok (Some cs) -> all_rows o P cs 0 l = Ok rows -> is_rot (bo_R (pos old)) -> travels o data old g pos P ->
  Forall2 (fun p e => sees o pos P p (snd e)) ps l ->
  let n := length l in forall i, (i < length rows)%nat -> mvec (3 * n + 6) (sysA n rows) (truth (pos old) g ps) i = sysb rows i.
Proof.
  intros Hk Ep Er Q Tr Hs n i Hi. unfold mvec, sysA, sysb. destruct (nth_error rows i) as [r|] eqn:En; [|apply nth_error_None in En; lia].
  assert (Hr : In r rows) by (eapply nth_error_In; exact En).
  destruct (all_rows_in o P cs l 0 rows r Hk Er Hr) as (k & id & f & cam & e & ob & A1 & A2 & A3 & A4 & A5). rewrite Nat.add_0_l in A5.
  assert (Ln : length ps = n) by (unfold n; clear -Hs; induction Hs; cbn [length]; congruence).
  assert (Kn : (k < n)%nat) by (apply nth_error_Some; congruence).
  assert (Sk : sees o pos P (nth k ps v3zero) f).
  { clear -Hs A1. revert k A1. induction Hs as [|p e' ps l Hp _ IH]; intros [|k] A1; cbn [nth_error nth] in *; try discriminate; [injection A1 as ->; exact Hp|apply IH, A1]. }
  pose proof (cpi_at_motion o data old P cs g pos (otime ob) Ep Tr Q A4) as M. unfold rows_of in A5. destruct (cpi_at cs (otime ob)) as [[[DT Rk] al] be]. cbv zeta in M, A5. destruct M as (M1 & _ & M3).
  specialize (Sk cam e ob A2 A3 A4). cbv zeta in Sk. destruct Sk as (S1 & S2 & S3). set (c := in_cam e (pos (otime ob)) (nth k ps v3zero)) in *.
  assert (Key : forall h b, r = mkRow k (m3v (m3tr (m3mul (quat_2_Rot (fst e)) Rk)) h) DT b -> b = v3dot (m3v (m3tr (m3mul (quat_2_Rot (fst e)) Rk)) h) al - v3dot h (snd e) -> v3dot h c = 0 ->
     sumn (3 * n + 6) (fun j => row_entry n r j * truth (pos old) g ps j) = yr_b r).
  { intros h b -> -> Z. rewrite row_dot by exact Kn. cbn [yr_k yr_y yr_DT yr_b]. rewrite <- Ln, truth_feat, truth_vel, truth_grav by lia.
    set (X := v3add _ _). assert (EX : X = v3add (m3v (bo_R (pos old)) (v3sub (nth k ps v3zero) (bo_p (pos (otime ob))))) al).
    { unfold X. rewrite M3. transitivity (v3add (m3v (bo_R (pos old)) (v3sub (nth k ps v3zero) (v3sub (v3add (bo_p (pos old)) (v3scal DT (bo_v (pos old)))) (v3scal (DT ^ 2 / 2) g)))) v3zero); [|].
      - generalize (bo_R (pos old)) (nth k ps v3zero) (bo_p (pos old)) (bo_v (pos old)). intros. apply v3_ext; simpl; field.
      - rewrite <- (rot_back (bo_R (pos old)) al Q) at 2. generalize (m3v (m3tr (bo_R (pos old))) al). generalize (bo_R (pos old)) (nth k ps v3zero) (bo_p (pos old)) (bo_v (pos old)). intros. apply v3_ext; simpl; field. }
    rewrite EX. rewrite !dot_tr, m3v_add, !m3v_mul. unfold c, in_cam in Z. rewrite M1, m3v_mul in Z.
    generalize dependent (m3v (quat_2_Rot (fst e)) (m3v Rk (m3v (bo_R (pos old)) (v3sub (nth k ps v3zero) (bo_p (pos (otime ob))))))). intros w Z.
    assert (Z' : v3dot h w + v3dot h (snd e) = 0) by (rewrite <- Z; unfold v3dot; simpl; ring).
    generalize dependent (m3v (quat_2_Rot (fst e)) (m3v Rk al)). intros z. transitivity (v3dot h w + v3dot h z); [unfold v3dot; simpl; ring|]. lra. }
  clearbody c. destruct A5 as [E|[E|[]]].
  - eapply Key; [symmetry; exact E|reflexivity|]. rewrite S2. unfold hproj, v3dot; simpl. field. exact S1.
  - eapply Key; [symmetry; exact E|reflexivity|]. rewrite S3. unfold hproj, v3dot; simpl. field. exact S1.
Qed.
