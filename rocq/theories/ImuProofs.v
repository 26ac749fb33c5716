From Coq Require Import Reals List Bool Lia Lra.
From Verif Require Import RBool Outcome GeoModel ImuModel ImuSpec.
Import ListNotations.
Open Scope R_scope.

(** ** interpolation *)
Lemma v3_ext a b : vx a = vx b -> vy a = vy b -> vz a = vz b -> a = b.
Proof. destruct a, b; simpl; intros; subst; reflexivity. Qed.

Lemma interp_line a b t : i_t a < i_t b -> on_line a b (interpolate_data a b t) /\ i_t (interpolate_data a b t) = t.
Proof.
  intros H. split; [|reflexivity]. unfold on_line, interpolate_data. simpl.
  split; apply v3_ext; simpl; field; lra.
Qed.
Lemma line_unique a b r r' : i_t a < i_t b -> on_line a b r -> on_line a b r' -> i_t r = i_t r' -> r = r'.
Proof.
  intros H [A1 A2] [B1 B2] E. rewrite <- E in B1, B2. rewrite <- A1 in B1. rewrite <- A2 in B2.
  assert (K : forall u v, v3scal (i_t b - i_t a) u = v3scal (i_t b - i_t a) v -> u = v).
  { intros u v X. injection X as X1 X2 X3. apply v3_ext; apply Rmult_eq_reg_l with (i_t b - i_t a); auto; lra. }
  apply K in B1. apply K in B2. destruct r, r'; simpl in *; subst; reflexivity.
Qed.
Lemma interp_left a b : i_t a < i_t b -> interpolate_data a b (i_t a) = a.
Proof.
  intros H. apply (line_unique a b); auto; [apply interp_line; auto|]. split; apply v3_ext; simpl; ring.
Qed.
Lemma interp_right a b : i_t a < i_t b -> interpolate_data a b (i_t b) = b.
Proof.
  intros H. apply (line_unique a b); auto; [apply interp_line; auto|]. split; apply v3_ext; simpl; ring.
Qed.
Lemma between_coef (x y l : R) : 0 <= l <= 1 -> Rmin x y <= (1 - l) * x + l * y <= Rmax x y.
Proof.
  intros H. unfold Rmin, Rmax. destruct (Rle_dec x y); split; nra.
Qed.
Lemma interp_between a b t : i_t a < i_t b -> i_t a <= t <= i_t b ->
  let r := interpolate_data a b t in
  forall f, In f [vx; vy; vz] ->
    Rmin (f (i_w a)) (f (i_w b)) <= f (i_w r) <= Rmax (f (i_w a)) (f (i_w b)) /\
    Rmin (f (i_a a)) (f (i_a b)) <= f (i_a r) <= Rmax (f (i_a a)) (f (i_a b)).
Proof.
  intros H Ht r f Hf.
  assert (L : 0 <= (t - i_t a) / (i_t b - i_t a) <= 1).
  { split.
    - apply Rmult_le_pos; [lra|]. left. apply Rinv_0_lt_compat. lra.
    - apply Rmult_le_reg_r with (i_t b - i_t a); [lra|]. unfold Rdiv. rewrite Rmult_assoc, Rinv_l; lra. }
  destruct Hf as [<-|[<-|[<-|[]]]]; simpl; split; apply between_coef; auto.
Qed.

(** ** time order *)
Lemma chrono_app l m : chrono (l ++ m) <-> chrono l /\ chrono m /\ (forall a b, In a l -> In b m -> i_t a < i_t b).
Proof.
  induction l as [|x l IH]; simpl.
  - split; [intros; repeat split; auto; intros ? ? []|tauto].
  - rewrite IH. split.
    + intros (A & B & C & D). repeat split; auto.
      * intros b Hb. apply A, in_or_app; auto.
      * intros a b [<-|Ha] Hb; auto. apply A, in_or_app; auto.
    + intros ((A & B) & C & D). repeat split; auto.
      intros b Hb. apply in_app_or in Hb. destruct Hb; auto.
Qed.
Lemma adj_cons x l a b : adjacent l a b -> adjacent (x :: l) a b.
Proof. intros (l1 & l2 & ->). exists (x :: l1), l2. reflexivity. Qed.
Lemma adj_head a b l : adjacent (a :: b :: l) a b.
Proof. exists [], l. reflexivity. Qed.
Lemma sig_cons x l r : on_signal l r -> on_signal (x :: l) r.
Proof.
  intros [H|(a & b & A & B)]; [left; simpl; auto|right]. exists a, b. split; auto. apply adj_cons; auto.
Qed.
Lemma sig_head a b l t : i_t a < i_t b -> i_t a <= t <= i_t b -> on_signal (a :: b :: l) (interpolate_data a b t).
Proof.
  intros H Ht. right. exists a, b. split; [apply adj_head|]. split; [exact Ht|]. apply interp_line; auto.
Qed.

Lemma last_two_cons a b l : exists x y, last_two (a :: b :: l) = Some (x, y) /\ adjacent (a :: b :: l) x y /\ last (a :: b :: l) a = y.
Proof.
  revert a b. induction l as [|c l IH]; intros a b.
  - exists a, b. split; [reflexivity|]. split; [apply adj_head|reflexivity].
  - destruct (IH b c) as (x & y & E & A & L). exists x, y. split.
    + change (last_two (a :: b :: c :: l)) with (match last_two (b :: c :: l) with Some p => Some p | None => match b :: c :: l with [b0] => Some (a, b0) | _ => None end end).
      rewrite E. reflexivity.
    + split; [apply adj_cons; auto|]. rewrite <- L. change (last (a :: b :: c :: l) a) with (last (b :: c :: l) a).
      clear. revert b c. induction l as [|d l IH]; intros b c; [reflexivity|].
      change (last (b :: c :: d :: l) a) with (last (c :: d :: l) a). change (last (b :: c :: d :: l) b) with (last (c :: d :: l) b).
      clear IH. revert c d. induction l as [|e l IH]; intros c d; [reflexivity|]. apply (IH d e).
Qed.
Lemma last_indep (l : list imu) d d' : l <> [] -> last l d = last l d'.
Proof.
  induction l as [|a l IH]; [congruence|]. intros _. destruct l as [|b l]; [reflexivity|]. apply IH. discriminate.
Qed.
Lemma last_in (l : list imu) d : l <> [] -> In (last l d) l.
Proof.
  induction l as [|a l IH]; [congruence|]. intros _. destruct l as [|b l]; [simpl; auto|]. right. apply IH. discriminate.
Qed.
Lemma chrono_last l d x : chrono l -> In x l -> i_t x <= i_t (last l d).
Proof.
  revert x. induction l as [|a l IH]; intros x; [intros _ []|]. intros [A B] Hx. destruct l as [|b l].
  - destruct Hx as [<-|[]]. simpl. lra.
  - change (last (a :: b :: l) d) with (last (b :: l) d). destruct Hx as [<-|Hx]; [|apply IH; auto].
    left. apply A. apply last_in. discriminate.
Qed.
Lemma adj_order l a b : chrono l -> adjacent l a b -> i_t a < i_t b.
Proof. intros C (l1 & l2 & ->). apply chrono_app in C. destruct C as (_ & [C _] & _). apply C. simpl; auto. Qed.
Lemma adj_last_in l a b : adjacent l a b -> In a l /\ In b l.
Proof. intros (l1 & l2 & ->). split; apply in_or_app; right; simpl; auto. Qed.

(** ** the loop once inside the interval *)
Definition upto (t1 : R) (l : list imu) : list imu := filter (fun r => Rltb (i_t r) t1) l.
Lemma upto_cons_lt t1 a l : i_t a < t1 -> upto t1 (a :: l) = a :: upto t1 l.
Proof. intros H. unfold upto. simpl. rewrite (proj2 (Rltb_true _ _) H). reflexivity. Qed.
Lemma upto_ge t1 l : (forall a, In a l -> t1 <= i_t a) -> upto t1 l = [].
Proof.
  induction l as [|a l IH]; simpl; auto. intros H. rewrite (proj2 (Rltb_false _ _)) by (apply H; auto). apply IH. auto.
Qed.

Lemma sel_eq t0 t1 prev a b l acc : sel_loop t0 t1 prev (a :: b :: l) acc =
  if (Rltb t0 (i_t b) && Rltb (i_t a) t0)%bool then sel_loop t0 t1 (Some a) (b :: l) (acc ++ [interpolate_data a b t0])
  else if (Rleb t0 (i_t a) && Rleb (i_t b) t1)%bool then sel_loop t0 t1 (Some a) (b :: l) (acc ++ [a])
  else if Rltb t1 (i_t b) then
    match (if Rltb t1 (i_t a) then option_map (fun p => interpolate_data p a t1) prev else Some a) with
    | None => Ok acc
    | Some x => if Reqb (i_t x) t1 then Ok (acc ++ [x]) else Ok (acc ++ [x; interpolate_data a b t1])
    end
  else sel_loop t0 t1 (Some a) (b :: l) acc.
Proof. reflexivity. Qed.

(** t1 before the last reading *)
Lemma loop_inside t0 t1 l : forall prev acc a, chrono (a :: l) -> t0 <= i_t a <= t1 -> t0 < t1 -> (exists z, In z (a :: l) /\ t1 < i_t z) ->
  exists r1, sel_loop t0 t1 prev (a :: l) acc = Ok (acc ++ upto t1 (a :: l) ++ [r1]) /\ i_t r1 = t1 /\ on_signal (a :: l) r1.
Proof.
  induction l as [|b l IH]; intros prev acc a C Ha H01 (z & Iz & Hz).
  - destruct Iz as [<-|[]]. lra.
  - destruct C as [Ca Cb]. assert (Hab : i_t a < i_t b) by (apply Ca; simpl; auto).
    rewrite sel_eq. destruct (Rltb_spec (i_t a) t0); [lra|]. rewrite andb_false_r.
    destruct (Rleb_spec t0 (i_t a)); [|lra]. cbn [andb].
    destruct (Rleb_spec (i_t b) t1) as [Hb|Hb].
    + destruct (IH (Some a) (acc ++ [a]) b Cb) as (r1 & E & T & Sg); auto; [lra| |].
      { exists z. split; auto. destruct Iz as [<-|Iz]; auto. lra. }
      exists r1. rewrite E. split; [|split; auto; apply sig_cons; auto].
      rewrite (upto_cons_lt t1 a) by lra. rewrite <- app_assoc. reflexivity.
    + destruct (Rltb_spec t1 (i_t b)); [|lra]. destruct (Rltb_spec t1 (i_t a)); [lra|].
      assert (U : upto t1 (b :: l) = []).
      { apply upto_ge. intros x Hx. destruct Cb as [Cb _]. destruct Hx as [<-|Hx]; [lra|]. specialize (Cb x Hx). lra. }
      destruct (Reqb_spec (i_t a) t1) as [E|E].
      * exists a. rewrite (upto_ge t1 (a :: b :: l)).
        -- split; auto. split; auto. left. simpl; auto.
        -- intros x Hx. destruct Hx as [<-|Hx]; [lra|]. specialize (Ca x Hx). lra.
      * exists (interpolate_data a b t1). rewrite upto_cons_lt by lra. rewrite U. split; auto. split; auto.
        apply sig_head; auto. lra.
Qed.
(** t1 not before the last reading: everything but the last one is taken *)
Lemma loop_short t0 t1 l : forall prev acc a, chrono (a :: l) -> t0 <= i_t a -> (forall z, In z (a :: l) -> i_t z <= t1) ->
  sel_loop t0 t1 prev (a :: l) acc = Ok (acc ++ removelast (a :: l)).
Proof.
  induction l as [|b l IH]; intros prev acc a C Ha Hz.
  - simpl. rewrite app_nil_r. reflexivity.
  - destruct C as [Ca Cb]. assert (Hab : i_t a < i_t b) by (apply Ca; simpl; auto).
    rewrite sel_eq. destruct (Rltb_spec (i_t a) t0); [lra|]. rewrite andb_false_r.
    destruct (Rleb_spec t0 (i_t a)); [|lra]. cbn [andb].
    destruct (Rleb_spec (i_t b) t1) as [Hb|Hb]; [|specialize (Hz b ltac:(simpl; auto)); lra].
    rewrite IH; auto; [|lra|intros; apply Hz; simpl; auto]. rewrite <- app_assoc. reflexivity.
Qed.

(** the loop up to the start of the interval *)
Definition bracket t0 (l : list imu) (r0 : imu) (pre post : list imu) : Prop :=
  l = pre ++ post /\ (forall a, In a pre -> i_t a < t0) /\ (forall a, In a post -> t0 <= i_t a).

Lemma split_at t0 l : chrono l -> exists pre post, bracket t0 l (mkImu 0 v3zero v3zero) pre post.
Proof.
  induction l as [|a l IH].
  - exists [], []. repeat split; auto; intros ? [].
  - intros [Ca Cl]. destruct (Rlt_le_dec (i_t a) t0) as [H|H].
    + destruct (IH Cl) as (pre & post & E & A & B). exists (a :: pre), post. split; [simpl; congruence|]. split; auto.
      intros x [<-|Hx]; auto.
    + exists [], (a :: l). split; auto. split; [intros ? []|]. intros x [<-|Hx]; auto. specialize (Ca x Hx). lra.
Qed.

Lemma loop_skip t0 t1 : t0 < t1 -> forall pre prev acc p b post, chrono (pre ++ p :: b :: post) -> i_t p < t0 -> t0 <= i_t b ->
  (forall a, In a pre -> i_t a < t0) ->
  exists prev', sel_loop t0 t1 prev (pre ++ p :: b :: post) acc =
    sel_loop t0 t1 (Some p) (b :: post) (if Rltb t0 (i_t b) then acc ++ [interpolate_data p b t0] else acc) /\ prev' = Some p.
Proof.
  intros H01. induction pre as [|x pre IH]; intros prev acc p b post C Hp Hb Hpre.
  - exists (Some p). split; auto. cbn [app]. rewrite sel_eq. destruct (Rltb_spec t0 (i_t b)) as [L|L].
    + destruct (Rltb_spec (i_t p) t0); [|lra]. reflexivity.
    + cbn [andb]. destruct (Rleb_spec t0 (i_t p)); [lra|]. cbn [andb]. destruct (Rltb_spec t1 (i_t b)); [lra|]. reflexivity.
  - destruct C as [Cx C]. assert (Hx : i_t x < t0) by (apply Hpre; simpl; auto).
    destruct (IH (Some x) acc p b post C Hp Hb) as (pr & E & _); [intros; apply Hpre; simpl; auto|].
    exists (Some p). split; auto. rewrite <- E.
    assert (Hn : forall y ys, pre ++ p :: b :: post = y :: ys -> i_t y < t0).
    { intros y ys Ey. destruct pre as [|q pre]; simpl in Ey; injection Ey as <- _; auto. apply Hpre. simpl; auto. }
    cbn [app]. destruct (pre ++ p :: b :: post) as [|y ys] eqn:El; [destruct pre; discriminate|].
    specialize (Hn y ys eq_refl). rewrite sel_eq.
    destruct (Rltb_spec t0 (i_t y)); [lra|]. cbn [andb]. destruct (Rleb_spec t0 (i_t x)); [lra|]. cbn [andb].
    destruct (Rltb_spec t1 (i_t y)); [lra|]. reflexivity.
Qed.
Lemma loop_before t0 t1 : t0 < t1 -> forall l prev acc, (forall a, In a l -> i_t a <= t0) -> chrono l -> sel_loop t0 t1 prev l acc = Ok acc.
Proof.
  intros H01. induction l as [|a l IH]; intros prev acc H C; [reflexivity|]. destruct l as [|b l]; [reflexivity|].
  destruct C as [Ca Cl]. assert (i_t a < i_t b) by (apply Ca; simpl; auto). assert (i_t b <= t0) by (apply H; simpl; auto).
  rewrite sel_eq. destruct (Rltb_spec t0 (i_t b)); [lra|]. cbn [andb]. destruct (Rleb_spec t0 (i_t a)); [lra|]. cbn [andb].
  destruct (Rltb_spec t1 (i_t b)); [lra|]. apply IH; auto. intros x Hx. apply H. simpl; auto.
Qed.

(** ** duplicate removal *)
Definition gap : R := 1 / 10 ^ 12.
Lemma gap_pos : 0 < gap. Proof. unfold gap. lra. Qed.
Lemma compact_eq a b l : compact (a :: b :: l) = if Rltb (Rabs (i_t b - i_t a)) (1 / 10 ^ 12) then compact (b :: l) else a :: compact (b :: l).
Proof. reflexivity. Qed.
Lemma compact_ne l : l <> [] -> compact l <> [].
Proof.
  induction l as [|a l IH]; [congruence|]. intros _. destruct l as [|b l]; [discriminate|]. rewrite compact_eq.
  destruct (Rltb _ _); [apply IH; discriminate|discriminate].
Qed.
Lemma compact_incl l : incl (compact l) l.
Proof.
  induction l as [|a l IH]; [intros x []|]. destruct l as [|b l]; [apply incl_refl|]. rewrite compact_eq.
  destruct (Rltb _ _); intros x Hx; [right; apply IH, Hx|]. destruct Hx as [<-|Hx]; [left; auto|right; apply IH, Hx].
Qed.
Lemma compact_last l x : exists l', compact (l ++ [x]) = l' ++ [x].
Proof.
  induction l as [|a l IH]; [exists []; reflexivity|]. destruct IH as (l' & E). cbn [app].
  destruct (l ++ [x]) as [|b m] eqn:El; [destruct l; discriminate|]. rewrite compact_eq.
  destruct (Rltb _ _); [exists l'; auto|]. exists (a :: l'). rewrite E. reflexivity.
Qed.
Lemma compact_spaced l : chrono l -> spaced gap (compact l) /\ chrono (compact l).
Proof.
  induction l as [|a l IH]; [simpl; auto|]. intros [Ca Cl]. destruct (IH Cl) as [S1 C1]. destruct l as [|b l]; [simpl; auto|].
  rewrite compact_eq. destruct (Rltb_spec (Rabs (i_t b - i_t a)) (1 / 10 ^ 12)) as [L|L]; auto.
  assert (Hab : i_t a < i_t b) by (apply Ca; simpl; auto). rewrite Rabs_right in L by lra.
  split; [|split; auto; intros x Hx; apply Ca, compact_incl, Hx].
  destruct (compact (b :: l)) as [|c m] eqn:Ec; [simpl; auto|]. split; auto.
  assert (Ic : In c (b :: l)) by (apply compact_incl; rewrite Ec; simpl; auto).
  fold gap in L. destruct Ic as [<-|Ic]; [lra|]. destruct Cl as [Cb _]. specialize (Cb c Ic). lra.
Qed.
Lemma compact_id l : spaced gap l -> compact l = l.
Proof.
  induction l as [|a l IH]; auto. destruct l as [|b l]; auto. intros [S1 S2]. rewrite compact_eq. fold gap.
  pose proof gap_pos. destruct (Rltb_spec (Rabs (i_t b - i_t a)) gap) as [L|L]; [rewrite Rabs_right in L by lra; lra|].
  rewrite IH; auto.
Qed.
Lemma durations_ends l x y : durations (x :: l ++ [y]) = i_t y - i_t x.
Proof.
  revert x. induction l as [|a l IH]; intros x; simpl; [ring|]. change (durations (x :: (a :: l) ++ [y])) with ((i_t a - i_t x) + durations (a :: l ++ [y])).
  simpl in IH. destruct l; simpl in *; rewrite ?IH; lra.
Qed.
