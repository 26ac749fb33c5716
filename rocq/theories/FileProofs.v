From Coq Require Import Reals List Arith Bool Ascii Lia Lra.
From Verif Require Import RBool Outcome GeoModel InitModel EvalModel FileModel FileSpec.
Import ListNotations.
Open Scope R_scope.

(** ** splitting *)
Lemma getline_cells dl s : forall cur, ~ In dl cur -> cells dl (cur ++ s) (getline_from dl cur s).
Proof.
  induction s as [|c s IH]; intros cur N.
  - rewrite app_nil_r. cbn [getline_from]. destruct cur; [constructor|constructor; auto; discriminate].
  - cbn [getline_from]. destruct (Ascii.eqb_spec c dl) as [->|Ne].
    + constructor; auto. apply (IH []). intros [].
    + replace (cur ++ c :: s) with ((cur ++ [c]) ++ s) by (rewrite <- app_assoc; reflexivity). apply IH.
      intros I. apply in_app_or in I. destruct I as [I|[I|[]]]; auto.
Qed.
Lemma getlines_cells dl s : cells dl s (getlines dl s).
Proof. apply (getline_cells dl s []). intros []. Qed.
Lemma split_unique (dl : ascii) w s w' s' : ~ In dl w -> ~ In dl w' -> w ++ dl :: s = w' ++ dl :: s' -> w = w' /\ s = s'.
Proof.
  revert w'. induction w as [|x w IH]; intros [|y w'] N N' E; cbn [app] in E; injection E.
  - auto.
  - intros _ ->. exfalso. apply N'. left; auto.
  - intros _ ->. exfalso. apply N. left; auto.
  - intros E' ->. destruct (IH w') as (-> & ->); auto; intros I; [apply N|apply N']; right; auto.
Qed.
Lemma cells_fun dl s ws : cells dl s ws -> forall ws', cells dl s ws' -> ws = ws'.
Proof.
  induction 1 as [|w Nw Nd|w s ws N C IH]; intros ws' C'.
  - inversion C'; auto; [congruence|]. destruct w; discriminate.
  - inversion C' as [E|w' Nw' Nd' E|w' s' ws0 N' C0 E]; subst; auto; [congruence|]. exfalso. apply Nd. apply in_elt.
  - inversion C' as [E|w' Nw' Nd' E|w' s' ws0 N' C0 E].
    + destruct w; discriminate.
    + subst. exfalso. apply Nd'. apply in_elt.
    + apply split_unique in E; auto. destruct E as (-> & ->). f_equal. apply IH; auto.
Qed.
Lemma words_skip dl s ws : cells dl s ws -> words dl s (filter (fun f => negb (blank f)) ws).
Proof.
  induction 1 as [|w Nw Nd|w s ws N C IH].
  - constructor.
  - destruct w as [|c w]; [congruence|]. cbn [filter blank negb]. rewrite <- (app_nil_r (c :: w)) at 1. apply wo_word; auto. constructor.
  - destruct w as [|c w]; cbn [filter blank negb app]; [constructor; auto|]. change (c :: w ++ dl :: s) with ((c :: w) ++ dl :: s).
    apply wo_word; [discriminate|auto|eauto|constructor; auto].
Qed.
Lemma words_fun dl s ws : words dl s ws -> forall ws', words dl s ws' -> ws = ws'.
Proof.
  induction 1 as [|s ws C IH|w s ws Nw Nd T C IH]; intros ws' C'.
  - inversion C' as [|? ? ? E|w ? ? ? ? ? ? E]; auto. destruct w; [congruence|discriminate].
  - inversion C' as [|? ? C0 E|w ? ? Nw Nd ? ? E]; subst; [auto|]. destruct w as [|c w]; [congruence|]. injection E as -> _. exfalso. apply Nd. left; auto.
  - inversion C' as [E|s0 ws0 C0 E|w' s' ws0 Nw' Nd' T' C0 E].
    + destruct w; [congruence|discriminate].
    + destruct w as [|c w]; [congruence|]. cbn [app] in E. injection E as E _. subst c. exfalso. apply Nd. left; auto.
    + assert (G : w' = w /\ s' = s).
      { clear - Nd Nd' T T' E. revert w' E Nd'. induction w as [|x w IHw]; intros [|y w'] E Nd'; cbn [app] in E.
        - auto.
        - exfalso. destruct T as [->|(t & ->)]; [discriminate|]. injection E as E _. apply Nd'. left; auto.
        - exfalso. destruct T' as [->|(t & ->)]; [discriminate|]. injection E as E _. apply Nd. left; auto.
        - injection E as -> E. destruct (IHw (fun I => Nd (or_intror I)) w' E (fun I => Nd' (or_intror I))) as (-> & ->). auto. }
      destruct G as (-> & ->). f_equal. apply IH; auto.
Qed.
Lemma words_eq dl l ws : words dl l ws -> ws = filter (fun f => negb (blank f)) (getlines dl l).
Proof. intros W. eapply words_fun; eauto. apply words_skip, getlines_cells. Qed.
Lemma words_ex dl l : words dl l (filter (fun f => negb (blank f)) (getlines dl l)).
Proof. apply words_skip, getlines_cells. Qed.
Lemma lines_eq s ls : lines s ls -> ls = getlines newline s.
Proof. intros C. eapply cells_fun; eauto. apply getlines_cells. Qed.
Lemma comment_iff l : comment l = true <-> noted l.
Proof.
  unfold noted. destruct l as [|c l]; cbn [comment]; [split; [discriminate|intros (? & ?); discriminate]|].
  rewrite Ascii.eqb_eq. split; [intros ->; eauto|intros (l' & E); congruence].
Qed.
Lemma comment_not l : comment l = false <-> ~ noted l.
Proof. rewrite <- comment_iff. destruct (comment l); split; congruence. Qed.

Lemma fill_full num n fs : forall acc, (n <= length acc)%nat -> fill num n acc fs = acc.
Proof.
  induction fs as [|f fs IH]; intros acc L; cbn [fill]; auto. assert (E : (n <=? length acc)%nat = true) by (apply Nat.leb_le; auto).
  rewrite E, orb_true_r. auto.
Qed.
Lemma fill_eq num n fs : forall acc, (length acc <= n)%nat -> fill num n acc fs = firstn n (acc ++ map num (filter (fun f => negb (blank f)) fs)).
Proof.
  induction fs as [|f fs IH]; intros acc L; cbn [fill filter map].
  - rewrite app_nil_r, firstn_all2; auto.
  - destruct (blank f); cbn [orb negb map]; [auto|]. destruct (Nat.leb_spec n (length acc)).
    + rewrite fill_full by auto. assert (n = length acc) by lia. subst n. rewrite firstn_app, Nat.sub_diag, firstn_all, firstn_O, app_nil_r. reflexivity.
    + rewrite IH by (rewrite app_length; cbn [length]; lia). rewrite <- app_assoc. reflexivity.
Qed.
Lemma fill_all_eq num fs : forall acc, fill_all num acc fs = acc ++ map num (filter (fun f => negb (blank f)) fs).
Proof.
  induction fs as [|f fs IH]; intros acc; cbn [fill_all filter map]; [rewrite app_nil_r; auto|].
  destruct (blank f); cbn [negb map]; [auto|]. rewrite IH, <- app_assoc. reflexivity.
Qed.
Lemma through_ex {A} (P : list ascii -> option A -> Prop) : (forall l, exists o, P l o) -> forall ls, exists es, through P ls es.
Proof.
  intros H. induction ls as [|l ls (es & IH)]; [exists []; constructor|]. destruct (H l) as ([a|] & Hl); [exists (a :: es); apply th_take; auto|exists es; apply th_skip; auto].
Qed.
Lemma lines_ex s : exists ls, lines s ls.
Proof. exists (getlines newline s). apply getlines_cells. Qed.
Lemma pose_line_ex num l : exists o, pose_line num l o.
Proof.
  destruct (comment l) eqn:E; [apply comment_iff in E; exists None; left; auto|]. apply comment_not in E.
  eexists. right. split; auto. exists (filter (fun f => negb (blank f)) (getlines " " l)). split; [apply words_ex|reflexivity].
Qed.
Lemma csv_line_ex num l : exists o, csv_line num l o.
Proof.
  destruct (comment l) eqn:E; [apply comment_iff in E; exists None; left; auto|]. apply comment_not in E.
  eexists. right. split; auto. exists (filter (fun f => negb (blank f)) (getlines "," l)). split; [apply words_ex|reflexivity].
Qed.
Lemma row_line_ex dl num l : exists o, row_line dl num l o.
Proof.
  destruct (comment l) eqn:E; [apply comment_iff in E; exists None; left; auto|]. apply comment_not in E.
  eexists. right. split; auto. exists (filter (fun f => negb (blank f)) (getlines dl l)). split; [apply words_ex|reflexivity].
Qed.
Lemma row8_line_ex num l : exists o, row8_line num l o.
Proof.
  destruct (comment l) eqn:E; [apply comment_iff in E; exists None; left; auto|]. apply comment_not in E.
  set (ws := filter (fun f => negb (blank f)) (getlines " " l)). destruct (le_lt_dec 8 (length ws)).
  - eexists. right. split; auto. exists ws. split; [apply words_ex|]. right. split; auto.
  - exists None. right. split; auto. exists ws. split; [apply words_ex|]. left. auto.
Qed.

(** ** load_data *)
Lemma cov_avg a b c d e f : m3scal 0.5 (m3add (M3 a b c b d e c e f) (m3tr (M3 a b c b d e c e f))) = sym3 a b c d e f.
Proof. unfold m3scal, m3add, m3tr, sym3. cbn [m00 m01 m02 m10 m11 m12 m20 m21 m22]. f_equal; lra. Qed.
Ltac sh := repeat match goal with |- context [ent ?v ?i] => let e := eval cbn in (ent v i) in change (ent v i) with e end; cbn [obind].
Lemma data_loop_eq num ls es : through (pose_line num) ls es -> forall a,
  data_loop num ls a = Ok (mkLd (ld_t a ++ map sa_t es) (ld_p a ++ map sa_p es) (ld_co a ++ map fst (covs_of es)) (ld_cp a ++ map snd (covs_of es))).
Proof.
  assert (St : forall l o, pose_line num l o -> forall ls a, data_loop num (l :: ls) a =
     data_loop num ls match o with None => a | Some e => mkLd (ld_t a ++ [sa_t e]) (ld_p a ++ [sa_p e]) (ld_co a ++ map fst (covs_of [e])) (ld_cp a ++ map snd (covs_of [e])) end).
  { intros l o [(N & ->)|(N & ws & W & E)] ls0 a; cbn [data_loop].
    { apply comment_iff in N. rewrite N. reflexivity. }
    apply comment_not in N. rewrite N. rewrite fill_eq by (cbn; lia). apply words_eq in W. rewrite <- W. cbn [app].
    generalize dependent (map num ws). clear. intros v E.
    do 8 (destruct v as [|? v]; [subst o; reflexivity|]). cbv beta iota in E.
    do 12 (destruct v as [|? v]; [subst o; unfold row_pose; cbn [firstn length Nat.leb]; sh; cbn [sa_t sa_p sa_c covs_of flat_map app map]; rewrite !app_nil_r; reflexivity|]).
    subst o. cbn [firstn length Nat.leb]. unfold row_pose, row_cov. cbn [Nat.add]. sh. cbv zeta. rewrite !cov_avg.
    cbn [sa_t sa_p sa_c covs_of flat_map app map fst snd]. reflexivity. }
  induction 1 as [|l ls es P T IH|l ls e es P T IH]; intros a.
  - cbn [data_loop map covs_of flat_map]. rewrite !app_nil_r. destruct a; reflexivity.
  - rewrite (St _ _ P). apply IH.
  - rewrite (St _ _ P). rewrite IH. cbn [ld_t ld_p ld_co ld_cp]. rewrite <- !app_assoc. cbn [map app].
    unfold covs_of. cbn [flat_map]. rewrite !map_app. cbn [map]. rewrite !app_nil_r. reflexivity.
Qed.
Lemma covs_le es : (length (covs_of es) <= length es)%nat.
Proof. induction es as [|e es IH]; [auto|]. unfold covs_of in *. cbn [flat_map length]. rewrite app_length. destruct (sa_c e); cbn [length]; lia. Qed.
Lemma covs_all es : length (covs_of es) = length es <-> forall e, In e es -> with_cov e.
Proof.
  unfold with_cov. induction es as [|e es IH]; [split; [intros _ ? []|reflexivity]|]. pose proof (covs_le es). unfold covs_of in *. cbn [flat_map length]. rewrite app_length.
  destruct (sa_c e) eqn:E; cbn [length].
  - split; [intros L x [<-|I]; [congruence|apply IH; auto; lia]|]. intros A. cbn [Nat.add]. f_equal. apply IH. intros; apply A; right; auto.
  - split; [lia|]. intros A. exfalso. apply (A e); auto. left; auto.
Qed.
Lemma covs_none es : covs_of es = [] <-> forall e, In e es -> ~ with_cov e.
Proof.
  unfold with_cov. induction es as [|e es IH]; [split; [intros _ ? []|reflexivity]|]. unfold covs_of in *. cbn [flat_map].
  destruct (sa_c e) eqn:E; cbn [app].
  - split; [discriminate|]. intros A. exfalso. apply (A e); [left; auto|congruence].
  - rewrite IH. split; [intros A x [<-|I]; [congruence|auto]|intros A x I; apply A; right; auto].
Qed.
Lemma load_data_thm num s ls es : lines s ls -> through (pose_line num) ls es ->
  (es <> [] -> (forall e, In e es -> with_cov e) -> load_data num (Some s) = Ok (mkLd (map sa_t es) (map sa_p es) (map fst (covs_of es)) (map snd (covs_of es)))) /\
  (es <> [] -> (forall e, In e es -> ~ with_cov e) -> load_data num (Some s) = Ok (mkLd (map sa_t es) (map sa_p es) [] [])) /\
  (es = [] \/ (exists e e', In e es /\ In e' es /\ with_cov e /\ ~ with_cov e') -> load_data num (Some s) = Exit).
Proof.
  intros L T. apply lines_eq in L. subst ls. unfold load_data. rewrite (data_loop_eq _ _ _ T). cbn [obind ld_t ld_p ld_co ld_cp app].
  rewrite !map_length, Nat.eqb_refl. split; [|split].
  - intros N A. apply covs_all in A. rewrite A, Nat.eqb_refl. cbn [andb]. rewrite orb_true_r. destruct es; [congruence|reflexivity].
  - intros N A. apply covs_none in A. rewrite A. cbn [map none orb]. destruct es; [congruence|reflexivity].
  - intros [->|(e & e' & Ie & Ie' & We & We')]; [reflexivity|]. destruct es as [|x es]; [destruct Ie|]. cbn [map none negb guard].
    assert (N1 : covs_of (x :: es) <> []) by (rewrite covs_none; intros A; apply (A e); auto).
    assert (N2 : length (covs_of (x :: es)) <> length (x :: es)) by (rewrite covs_all; intros A; apply We'; auto).
    set (cs := covs_of (x :: es)) in *. destruct cs as [|c cs]; [congruence|]. cbn [map none orb].
    destruct (Nat.eqb_spec (length (x :: es)) (length (c :: cs))) as [E|_]; [congruence|]. reflexivity.
Qed.

(** ** load_data_csv *)
Lemma csv_loop_eq num ls es : through (csv_line num) ls es -> forall a,
  csv_loop num ls a = Ok (mkLd (ld_t a ++ map fst es) (ld_p a ++ map snd es) (ld_co a) (ld_cp a)).
Proof.
  assert (St : forall l o, csv_line num l o -> forall ls a, csv_loop num (l :: ls) a =
     csv_loop num ls match o with None => a | Some e => mkLd (ld_t a ++ [fst e]) (ld_p a ++ [snd e]) (ld_co a) (ld_cp a) end).
  { intros l o [(N & ->)|(N & ws & W & E)] ls0 a; cbn [csv_loop].
    { apply comment_iff in N. rewrite N. reflexivity. }
    apply comment_not in N. rewrite N. rewrite fill_eq by (cbn; lia). apply words_eq in W. rewrite <- W. cbn [app].
    generalize dependent (map num ws). clear. intros v E.
    do 8 (destruct v as [|? v]; [subst o; reflexivity|]). cbv beta iota in E. subst o. cbn [firstn length Nat.leb]. sh. cbn [fst snd].
    unfold Rdiv. rewrite (Rmult_comm (/ 10 ^ 9)). reflexivity. }
  induction 1 as [|l ls es P T IH|l ls e es P T IH]; intros a.
  - cbn [csv_loop map]. rewrite !app_nil_r. destruct a; reflexivity.
  - rewrite (St _ _ P). apply IH.
  - rewrite (St _ _ P). rewrite IH. cbn [ld_t ld_p ld_co ld_cp]. rewrite <- !app_assoc. reflexivity.
Qed.
Lemma load_csv_thm num s ls es : lines s ls -> through (csv_line num) ls es ->
  load_data_csv num (Some s) = match es with [] => Exit | _ => Ok (mkLd (map fst es) (map snd es) [] []) end.
Proof.
  intros L T. apply lines_eq in L. subst ls. unfold load_data_csv. rewrite (csv_loop_eq _ _ _ T). cbn [obind ld_t ld_p ld_co ld_cp app].
  rewrite !map_length, Nat.eqb_refl. destruct es; reflexivity.
Qed.

(** ** rows *)
Lemma sim_rows_eq num ls es : through (row_line " " num) ls es -> sim_rows num ls = es.
Proof.
  unfold sim_rows. induction 1 as [|l ls es P T IH|l ls e es P T IH]; [reflexivity| |]; cbn [filter].
  - destruct P as [(N & _)|(_ & ws & _ & E)]; [|discriminate]. apply comment_iff in N. rewrite N. exact IH.
  - destruct P as [(_ & E)|(N & ws & W & E)]; [discriminate|]. injection E as ->. apply comment_not in N. rewrite N. cbn [negb map].
    rewrite IH, fill_all_eq. apply words_eq in W. rewrite <- W. reflexivity.
Qed.
Lemma load_sim_thm num s ls es : lines s ls -> through (row_line " " num) ls es ->
  (es <> [] -> (forall a b, In a es -> In b es -> length a = length b) -> load_simulation num (Some s) = Ok es) /\
  (es = [] \/ (exists a b, In a es /\ In b es /\ length a <> length b) -> load_simulation num (Some s) = Exit).
Proof.
  intros L T. apply lines_eq in L. subst ls. unfold load_simulation. rewrite (sim_rows_eq _ _ _ T). split.
  - intros N A. destruct es as [|r es]; [congruence|]. assert (F : forallb (fun x => length x =? length r)%nat (r :: es) = true).
    { apply forallb_forall. intros x I. apply Nat.eqb_eq. apply A; auto. left; auto. }
    cbv zeta. rewrite F. reflexivity.
  - intros [->|(a & b & Ia & Ib & D)]; [reflexivity|]. destruct es as [|r es]; [destruct Ia|]. cbv zeta.
    destruct (forallb _ _) eqn:F; [|reflexivity]. exfalso. rewrite forallb_forall in F. apply D.
    apply F in Ia. apply F in Ib. apply Nat.eqb_eq in Ia, Ib. congruence.
Qed.
Lemma traj_rows_eq num ls es : through (row8_line num) ls es -> traj_rows num ls = es.
Proof.
  unfold traj_rows. induction 1 as [|l ls es P T IH|l ls e es P T IH]; [reflexivity| |]; cbn [filter].
  - destruct P as [(N & _)|(N & ws & W & [(L & E)|(L & E)])].
    + apply comment_iff in N. rewrite N. exact IH.
    + apply comment_not in N. rewrite N. cbn [negb map filter]. rewrite fill_eq by (cbn; lia). apply words_eq in W. rewrite <- W. cbn [app].
      rewrite firstn_length, map_length, Nat.min_r by lia. destruct (Nat.ltb_spec 7 (length ws)); [lia|]. exact IH.
    + discriminate.
  - destruct P as [(_ & E)|(N & ws & W & [(L & E)|(L & E)])]; try discriminate. injection E as ->.
    apply comment_not in N. rewrite N. cbn [negb map filter]. rewrite fill_eq by (cbn; lia). apply words_eq in W. rewrite <- W. cbn [app].
    rewrite firstn_length, map_length, Nat.min_l by lia. cbn [Nat.ltb Nat.leb]. f_equal. exact IH.
Qed.
Lemma load_traj_thm num s ls es : lines s ls -> through (row8_line num) ls es ->
  load_simulated_trajectory num (Some s) = match es with [] => Exit | _ => Ok es end.
Proof.
  intros L T. apply lines_eq in L. subst ls. unfold load_simulated_trajectory. rewrite (traj_rows_eq _ _ _ T). destruct es; reflexivity.
Qed.

(** ** timing *)
Lemma percent_eq num ls es : through (row_line " " num) ls es -> (forall r, In r es -> (4 <= length r)%nat) -> forall a,
  percent_loop num ls a = Ok (a ++ flat_map (fun r => if Reqb (nth 3 r 0) 0 then [] else [(nth 0 r 0, V3 (nth 1 r 0) (nth 2 r 0) (nth 3 r 0), skipn 4 r)]) es).
Proof.
  induction 1 as [|l ls es P T IH|l ls e es P T IH]; intros A a; cbn [percent_loop].
  - cbn [flat_map]. rewrite app_nil_r. reflexivity.
  - destruct P as [(N & _)|(_ & ws & _ & E)]; [|discriminate]. apply comment_iff in N. rewrite N. apply IH; auto.
  - destruct P as [(_ & E)|(N & ws & W & E)]; [discriminate|]. injection E as E. apply comment_not in N. rewrite N.
    rewrite fill_all_eq. apply words_eq in W. rewrite <- W. cbn [app]. rewrite <- E. pose proof (A e (or_introl eq_refl)) as L4.
    destruct e as [|x0 [|x1 [|x2 [|x3 e]]]]; cbn [length] in L4; try lia. sh. cbn [flat_map nth]. 
    destruct (Reqb x3 0); cbn [app]; [apply IH; intros; apply A; right; auto|]. sh. rewrite IH by (intros; apply A; right; auto). rewrite <- app_assoc. reflexivity.
Qed.
Lemma percent_short num ls es r : through (row_line " " num) ls es -> In r es -> (length r < 4)%nat -> forall a, percent_loop num ls a = UB.
Proof.
  induction 1 as [|l ls es P T IH|l ls e es P T IH]; intros Ir L a; cbn [percent_loop].
  - destruct Ir.
  - destruct P as [(N & _)|(_ & ws & _ & E)]; [|discriminate]. apply comment_iff in N. rewrite N. apply IH; auto.
  - destruct P as [(_ & E)|(N & ws & W & E)]; [discriminate|]. injection E as E. apply comment_not in N. rewrite N.
    rewrite fill_all_eq. apply words_eq in W. rewrite <- W. cbn [app]. rewrite <- E.
    destruct e as [|x0 [|x1 [|x2 [|x3 e]]]]; try (unfold ent; cbn [nth_error obind]; reflexivity).
    destruct Ir as [<-|Ir]; [cbn [length] in L; lia|]. specialize (IH Ir L). sh. destruct (Reqb x3 0); [apply IH|]. sh. apply IH.
Qed.
