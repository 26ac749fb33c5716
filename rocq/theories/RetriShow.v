(** C95: landmarks, reprojection and definedness of retriangulate_active_tracks. *)
From Coq Require Import Reals List Arith Bool Lia Lra.
From Verif Require Import RBool Outcome GeoModel GeoSpec GeoProofs DbModel DbProofs FeatModel FeatSpec FeatProofs RetriModel RetriSpec RetriProofs.
Import ListNotations.
Open Scope R_scope.

(** ** pixels of camera 0 *)
Definition last_px (id : nat) (ids : list nat) (pts : list (R * R)) (d : option (R * R)) : option (R * R) :=
  match filter (fun e => Nat.eqb (fst e) id) (combine ids pts) with [] => d | e :: l => Some (snd (last l e)) end.
Lemma obs_loop_uv solve svals o i old cam M c id : forall pts ids a a', obs_loop solve svals o i old cam M c pts ids a = Ok a' ->
  alook (ra_uv a') id = if Nat.eqb cam 0 then last_px id ids pts (alook (ra_uv a) id) else alook (ra_uv a) id.
Proof.
  induction pts as [|pt pts IH]; intros ids a a' E; cbn [obs_loop] in E.
  - injection E as <-. unfold last_px. destruct ids; destruct (Nat.eqb cam 0); reflexivity.
  - apply obind_ok in E as (k & E1 & E). cbv zeta in E. apply obind_ok in E as (a2 & E2 & E3).
    destruct ids as [|k' ids]; [discriminate E1|]. cbn in E1. injection E1 as ->. cbn [tl] in E3.
    set (a1 := if Nat.eqb cam 0 then mkRacc (aset (ra_uv a) k pt) (ra_new a) (ra_pos a) else a) in *.
    assert (Q : ra_uv a2 = ra_uv a1).
    { destruct (alook (ri_slam i) k); [injection E2 as <-; reflexivity|]. apply obind_ok in E2 as (u & U & E2). exact (proj1 (obs_step_id _ _ _ _ _ _ _ _ _ _ id E2)). }
    rewrite (IH _ _ _ E3), Q. unfold a1. destruct (Nat.eqb cam 0); [|reflexivity]. cbn [ra_uv]. rewrite alook_aset. unfold last_px. cbn [combine filter fst].
    rewrite (Nat.eqb_sym k id). destruct (Nat.eqb id k); [|reflexivity]. destruct (filter _ (combine ids pts)) as [|e l]; [reflexivity|]. do 2 f_equal. destruct l as [|b l]; [reflexivity|]. change (last (e :: b :: l) (k, pt)) with (last (b :: l) (k, pt)). apply last_any.
Qed.
Lemma cams_uv solve svals o i old id : forall cams a a', ofold (cam_loop solve svals o i old) cams a = Ok a' ->
  alook (ra_uv a') id = if existsb (Nat.eqb 0) cams then
    match alook (ri_obs i) 0, alook (ri_ids i) 0 with Some pts, Some ids => last_px id ids pts (alook (ra_uv a) id) | _, _ => None end
  else alook (ra_uv a) id.
Proof.
  induction cams as [|c cams IH]; intros a a' E; cbn [ofold] in E; [injection E as <-; reflexivity|].
  apply obind_ok in E as (a1 & E1 & E2). rewrite (IH _ _ E2). cbn [existsb].
  unfold cam_loop in E1. apply obind_ok in E1 as (B & _ & E1). apply obind_ok in E1 as (C & _ & E1). apply obind_ok in E1 as (pts & P1 & E1). apply obind_ok in E1 as (ids & P2 & E1).
  rewrite (obs_loop_uv _ _ _ _ _ _ _ _ id _ _ _ _ E1). rewrite (Nat.eqb_sym c 0). destruct (Nat.eqb_spec 0 c) as [<-|N]; [|reflexivity]. cbn [orb].
  destruct (alook (ri_obs i) 0) as [q|]; [|discriminate P1]. destruct (alook (ri_ids i) 0) as [r|]; [|discriminate P2]. cbn in P1, P2. injection P1 as ->. injection P2 as ->.
  destruct (existsb (Nat.eqb 0) cams); [|reflexivity]. unfold last_px. destruct (filter _ (combine ids pts)); reflexivity.
Qed.

(** ** the result *)
Lemma slam_nodup i : forall l p p', ofold (slam_step i) l p = Ok p' -> NoDup (map fst p) -> NoDup (map fst p').
Proof.
  induction l as [|e l IH]; intros p p' E N; cbn [ofold] in E; [injection E as <-; exact N|]. apply obind_ok in E as (p1 & E1 & E2). apply (IH _ _ E2).
  unfold slam_step in E1. apply obind_ok in E1 as (q & _ & E1). injection E1 as <-. apply aset_nodup. exact N.
Qed.
Lemma pos_nodup solve svals o i old : forall cams a a', ofold (cam_loop solve svals o i old) cams a = Ok a' -> NoDup (map fst (ra_pos a)) -> NoDup (map fst (ra_pos a')).
Proof.
  assert (G : forall cam M c pts ids a a', obs_loop solve svals o i old cam M c pts ids a = Ok a' -> NoDup (map fst (ra_pos a)) -> NoDup (map fst (ra_pos a'))).
  { intros cam M c. induction pts as [|pt pts IH]; intros ids a a' E N; cbn [obs_loop] in E; [injection E as <-; exact N|].
    apply obind_ok in E as (k & _ & E). cbv zeta in E. apply obind_ok in E as (a2 & E2 & E3). apply (IH _ _ _ E3).
    set (a1 := if Nat.eqb cam 0 then _ else a) in *. assert (N1 : NoDup (map fst (ra_pos a1))) by (unfold a1; destruct (Nat.eqb cam 0); exact N).
    destruct (alook (ri_slam i) k); [injection E2 as <-; exact N1|]. apply obind_ok in E2 as (u & _ & E2). unfold obs_step in E2. cbv zeta in E2. apply obind_ok in E2 as (s & _ & E2). injection E2 as <-. cbn [ra_pos].
    destruct (recover solve svals o M c s); [apply aset_nodup|]; exact N1. }
  induction cams as [|c cams IH]; intros a a' E N; cbn [ofold] in E; [injection E as <-; exact N|]. apply obind_ok in E as (a1 & E1 & E2). apply (IH _ _ E2).
  unfold cam_loop in E1. apply obind_ok in E1 as (B & _ & E1). apply obind_ok in E1 as (C & _ & E1). apply obind_ok in E1 as (pts & _ & E1). apply obind_ok in E1 as (ids & _ & E1). exact (G _ _ _ _ _ _ _ E1 N).
Qed.
Lemma call_split solve svals o old i x : retriangulate solve svals o old i = Ok x -> exists B a, ri_clone i (ri_time i) = Some B /\
  ofold (cam_loop solve svals o i old) (ri_cams i) (mkRacc [] [] []) = Ok a /\
  ((ri_slam i = [] /\ ro_pos x = [] /\ ro_uvd x = []) \/
   (exists C, ri_calib i 0 = Some C /\ ofold (slam_step i) (ri_slam i) (ra_pos a) = Ok (ro_pos x) /\ ro_uvd x = fold_left (uvd_step i B C (ra_uv a)) (ro_pos x) [])) /\
  NoDup (map fst (ro_pos x)) /\ ro_time x = ri_time i.
Proof.
  intros E. unfold retriangulate in E. apply obind_ok in E as (B & EB & E). apply obind_ok in E as (a & Ea & E).
  destruct (ri_clone i (ri_time i)) as [B'|]; [|discriminate EB]. cbn in EB. injection EB as ->. exists B, a. split; [reflexivity|]. split; [exact Ea|].
  assert (N : NoDup (map fst (ra_pos a))) by (apply (pos_nodup _ _ _ _ _ _ _ _ Ea); constructor).
  assert (Q : (ri_slam i = [] /\ x = mkRout (ri_time i) (ra_new a) [] []) \/ (do pos <- ofold (slam_step i) (ri_slam i) (ra_pos a); do C <- look (ri_calib i 0); Ok (mkRout (ri_time i) (ra_new a) pos (fold_left (uvd_step i B C (ra_uv a)) pos []))) = Ok x).
  { destruct (ra_pos a) as [|e0 l0] eqn:Ep; [destruct (ri_slam i) as [|e1 l1] eqn:Es|]; [left; split; [reflexivity|congruence]|right; exact E|right; exact E]. }
  destruct Q as [(Q1 & ->)|Q]; cbn [ro_pos ro_uvd ro_time].
  - split; [left; auto|]. split; [constructor|reflexivity].
  - apply obind_ok in Q as (p & P1 & Q). apply obind_ok in Q as (C & P2 & Q). injection Q as <-. cbn [ro_pos ro_uvd ro_time].
    destruct (ri_calib i 0) as [C'|]; [|discriminate P2]. cbn in P2. injection P2 as ->.
    split; [right; exists C; auto|]. split; [exact (slam_nodup _ _ _ _ P1 N)|reflexivity].
Qed.

(** landmarks *)
Lemma slam_pos_stands i f P : rots i -> slam_pos i f = Ok P -> stands i f P.
Proof.
  intros (RB & RC) E. unfold slam_pos in E. unfold stands. destruct (sl_rel f); [|injection E as <-; reflexivity].
  apply obind_ok in E as (c & E1 & E). apply obind_ok in E as (C & E2 & E). apply obind_ok in E as (B & E3 & E). injection E as <-.
  destruct (sl_cam f) as [c'|]; [|discriminate E1]. cbn in E1. injection E1 as ->. destruct (ri_calib i c) as [C'|] eqn:EC; [|discriminate E2]. cbn in E2. injection E2 as ->.
  destruct (ri_clone i (sl_time f)) as [B'|] eqn:EB; [|discriminate E3]. cbn in E3. injection E3 as ->. exists c, C, B. split; [reflexivity|]. split; [exact EC|]. split; [reflexivity|].
  destruct C as [MC pC], B as [MB pB]. destruct (RB _ _ _ EB) as (HB & _), (RC _ _ _ EC) as (HC & _). cbn [fst snd].
  set (q := v3sub (sl_xyz f) pC). replace (v3sub (v3add (m3v (m3mul (m3tr MB) (m3tr MC)) q) pB) pB) with (m3v (m3mul (m3tr MB) (m3tr MC)) q) by (apply v3_ext; cbn; ring).
  rewrite m3v_mul, <- (m3v_mul MB (m3tr MB)), HB, m3v_id, <- (m3v_mul MC (m3tr MC)), HC, m3v_id. unfold q. apply v3_ext; cbn; ring.
Qed.
Lemma slam_fold_in i id f : forall l p p', ofold (slam_step i) l p = Ok p' -> NoDup (map fst l) -> (forall k g, In (k, g) l -> sl_id g = k) -> In (id, f) l ->
  exists P, slam_pos i f = Ok P /\ alook p' id = Some P.
Proof.
  induction l as [|[k g] l IH]; intros p p' E N K H; [destruct H|]. cbn [ofold] in E. apply obind_ok in E as (p1 & E1 & E2).
  inversion N as [|? ? N1 N2 X]; subst. cbn [map fst] in N1. destruct H as [H|H]; [|exact (IH _ _ E2 N2 (fun a b c => K a b (or_intror c)) H)].
  injection H as -> ->. unfold slam_step in E1. cbn [snd] in E1. apply obind_ok in E1 as (P & EP & E1). injection E1 as <-. exists P. split; [exact EP|].
  rewrite (slam_fold i id l _ _ E2 (fun a b c => K a b (or_intror c)) N1). rewrite (K id f (or_introl eq_refl)), alook_aset, Nat.eqb_refl. reflexivity.
Qed.
Lemma landmark_thm solve svals o old i x id f : retriangulate solve svals o old i = Ok x -> keyed i -> rots i -> alook (ri_slam i) id = Some f ->
  exists P, alook (ro_pos x) id = Some P /\ stands i f P.
Proof.
  intros E (N & K) Rt H. destruct (call_split _ _ _ _ _ _ E) as (B & a & _ & _ & [(Q & _)|(C & _ & P1 & _)] & _); [rewrite Q in H; discriminate|].
  apply alook_in in H; [|exact N]. destruct (slam_fold_in i id f _ _ _ P1 N K H) as (P & S1 & S2). exists P. split; [exact S2|exact (slam_pos_stands i f P Rt S1)].
Qed.

(** reprojection *)
Definition shown (i : rin) (B C : m3 * v3) (u : option (R * R)) (p : v3) : option v3 :=
  match u with
  | None => None
  | Some u => let z := vz (v3add (m3v (fst C) (m3v (fst B) (v3sub p (snd B)))) (snd C)) in
      if Rltb z (1 / 10) then None else if Rltb (fst u) 0 || Rleb (INR (ri_w i)) (fst u) || Rltb (snd u) 0 || Rleb (INR (ri_h i)) (snd u) then None else Some (V3 (fst u) (snd u) z)
  end.
Lemma uvd_fold i B C uv0 id : forall l out, NoDup (map fst l) -> (forall k, In k (map fst l) -> alook out k = None) ->
  alook (fold_left (uvd_step i B C uv0) l out) id = match alook l id with Some p => shown i B C (alook uv0 id) p | None => alook out id end.
Proof.
  induction l as [|[k p] l IH]; intros out N F; [reflexivity|]. cbn [fold_left alook]. inversion N as [|? ? N1 N2 X]; subst. cbn [map fst] in *.
  pose proof (F k (or_introl eq_refl)) as Fk.
  assert (G : forall m, alook (uvd_step i B C uv0 out (k, p)) m = if Nat.eqb m k then shown i B C (alook uv0 k) p else alook out m).
  { intros m. unfold uvd_step, shown. cbn [fst snd]. destruct (alook uv0 k) as [u|].
    - cbv zeta. destruct (Rltb _ (1 / 10)); [destruct (Nat.eqb_spec m k); [subst; exact Fk|reflexivity]|]. destruct (_ || _); [destruct (Nat.eqb_spec m k); [subst; exact Fk|reflexivity]|].
      rewrite Fk, alook_aset. reflexivity.
    - destruct (Nat.eqb_spec m k); [subst; exact Fk|reflexivity]. }
  rewrite IH; [|exact N2|].
  - rewrite G. destruct (Nat.eqb_spec id k) as [->|M]; [|reflexivity].
    destruct (alook l k) as [q|] eqn:El; [|reflexivity]. exfalso. apply N1. apply (alook_in l k q N2) in El. apply (in_map fst) in El. exact El.
  - intros m Hm. rewrite G. destruct (Nat.eqb_spec m k) as [->|M]; [tauto|]. apply F. right. exact Hm.
Qed.
Lemma uvd_thm solve svals o old i x id q : retriangulate solve svals o old i = Ok x ->
  (alook (ro_uvd x) id = Some q <->
   exists p u B C, alook (ro_pos x) id = Some p /\ pixel0 i id = Some u /\ ri_clone i (ri_time i) = Some B /\ ri_calib i 0 = Some C /\
     let z := vz (v3add (m3v (fst C) (m3v (fst B) (v3sub p (snd B)))) (snd C)) in
     q = V3 (fst u) (snd u) z /\ 1 / 10 <= z /\ 0 <= fst u < INR (ri_w i) /\ 0 <= snd u < INR (ri_h i)).
Proof.
  intros E. destruct (call_split _ _ _ _ _ _ E) as (B & a & EB & Ea & Q & N & _).
  assert (U : alook (ra_uv a) id = pixel0 i id).
  { rewrite (cams_uv _ _ _ _ _ id _ _ _ Ea). cbn [ra_uv alook]. unfold pixel0, last_px. destruct (existsb (Nat.eqb 0) (ri_cams i)); [|reflexivity].
    destruct (alook (ri_obs i) 0); [|reflexivity]. destruct (alook (ri_ids i) 0); reflexivity. }
  destruct Q as [(_ & Q1 & Q2)|(C & EC & _ & Q2)].
  - rewrite Q1, Q2. cbn [alook]. split; [discriminate|]. intros (p & u & B' & C & H & _). discriminate.
  - rewrite Q2, uvd_fold; [|exact N|reflexivity]. cbn [alook]. rewrite U. unfold shown. split.
    + destruct (alook (ro_pos x) id) as [p|]; [|discriminate]. destruct (pixel0 i id) as [u|]; [|discriminate]. cbv zeta.
      destruct (Rltb_spec (vz (v3add (m3v (fst C) (m3v (fst B) (v3sub p (snd B)))) (snd C))) (1 / 10)); [discriminate|].
      destruct (Rltb_spec (fst u) 0), (Rleb_spec (INR (ri_w i)) (fst u)), (Rltb_spec (snd u) 0), (Rleb_spec (INR (ri_h i)) (snd u)); cbn [orb]; try discriminate.
      intros Hq. injection Hq as <-. exists p, u, B, C. repeat split; auto; lra.
    + intros (p & u & B' & C' & -> & -> & H1 & H2 & H). cbv zeta in H. assert (B' = B) by congruence. assert (C' = C) by congruence. subst B' C'. destruct H as (-> & Z & W1 & W2). cbv zeta.
      destruct (Rltb_spec (vz (v3add (m3v (fst C) (m3v (fst B) (v3sub p (snd B)))) (snd C))) (1 / 10)); [lra|].
      destruct (Rltb_spec (fst u) 0), (Rleb_spec (INR (ri_w i)) (fst u)), (Rltb_spec (snd u) 0), (Rleb_spec (INR (ri_h i)) (snd u)); cbn [orb]; try reflexivity; lra.
Qed.

(** ** definedness *)
Lemma defined_thm solve svals o old i : complete i -> exists x, retriangulate solve svals o old i = Ok x.
Proof.
  intros (HB & HC & Hc & Hs). destruct (ri_clone i (ri_time i)) as [B|] eqn:EB; [|congruence]. destruct (ri_calib i 0) as [C0|] eqn:EC; [|congruence].
  assert (L : forall cam M c pts ids a, ri_und i cam <> None -> length ids = length pts -> exists a', obs_loop solve svals o i old cam M c pts ids a = Ok a').
  { intros cam M c. induction pts as [|pt pts IH]; intros ids a U Le; [eexists; reflexivity|]. destruct ids as [|k ids]; [discriminate|]. cbn [obs_loop hd_error look obind tl]. cbv zeta.
    set (a1 := if Nat.eqb cam 0 then _ else a). destruct (alook (ri_slam i) k); cbn [obind]; [apply IH; [exact U|injection Le as ->; reflexivity]|].
    destruct (ri_und i cam) as [u|] eqn:Eu; [|congruence]. cbn [look obind].
    assert (X : exists s, obs_step solve svals o old M c k (u pt) a1 = Ok s).
    { unfold obs_step. cbv zeta. rewrite append_id, Nat.eqb_refl. destruct (alook old k) as [[[A b] n]|]; [eexists; reflexivity|]. destruct (alook (ra_new a1) k); eexists; reflexivity. }
    destruct X as (s & ->). cbn [obind]. apply IH; [discriminate|injection Le as ->; reflexivity]. }
  assert (L2 : forall cams a, (forall c, In c cams -> In c (ri_cams i)) -> exists a', ofold (cam_loop solve svals o i old) cams a = Ok a').
  { induction cams as [|c cams IH]; intros a Hi; [eexists; reflexivity|]. cbn [ofold]. destruct (Hc c (Hi c (or_introl eq_refl))) as (C1 & C2 & pts & ids & C3 & C4 & C5).
    unfold cam_loop at 1. rewrite EB. cbn [look obind]. destruct (ri_calib i c) as [C|]; [|congruence]. rewrite C3, C4. cbn [look obind].
    destruct (L c (cam_R B C) (cam_p B C) pts ids a C2 C5) as (a1 & ->). cbn [obind]. apply IH. intros d Hd. apply Hi. right. exact Hd. }
  assert (L3 : forall l p, (forall e, In e l -> In e (ri_slam i)) -> exists p', ofold (slam_step i) l p = Ok p').
  { induction l as [|[k f] l IH]; intros p Hi; [eexists; reflexivity|]. cbn [ofold]. unfold slam_step at 1. cbn [snd].
    assert (X : exists P, slam_pos i f = Ok P).
    { unfold slam_pos. destruct (sl_rel f) eqn:Er; [|eexists; reflexivity]. destruct (Hs k f (Hi _ (or_introl eq_refl)) Er) as (c & -> & X1 & X2).
      cbn [look obind]. destruct (ri_calib i c); [|congruence]. cbn [look obind]. destruct (ri_clone i (sl_time f)); [|congruence]. eexists; reflexivity. }
    destruct X as (P & ->). cbn [obind]. apply IH. intros e He. apply Hi. right. exact He. }
  unfold retriangulate. rewrite EB. cbn [look obind]. destruct (L2 (ri_cams i) (mkRacc [] [] []) (fun c h => h)) as (a & ->). cbn [obind].
  destruct (L3 (ri_slam i) (ra_pos a) (fun e h => h)) as (p & Ep). rewrite EC.
  assert (X : exists x, (do pos <- ofold (slam_step i) (ri_slam i) (ra_pos a); do C <- look (Some C0); Ok (mkRout (ri_time i) (ra_new a) pos (fold_left (uvd_step i B C (ra_uv a)) pos []))) = Ok x) by (rewrite Ep; eexists; reflexivity).
  destruct (ra_pos a); [destruct (ri_slam i)|]; [eexists; reflexivity|exact X|exact X].
Qed.
