(** Proofs about the configuration loading: the flag, single values, folders. *)
From Coq Require Import Reals List Arith Bool ZArith String Ascii Lia Lra.
From Verif Require Import Outcome RBool GeoModel GeoSpec Lin DbModel FeatModel CamModel PropModel CfgModel CfgSpec.
Import ListNotations.
Open Scope R_scope.

(** ** the flag: the outcome and the value do not depend on it, and it never rises *)
Definition indep {A} (m : M A) : Prop := forall k, m k = obind (m true) (fun p => Ok (fst p, (k && snd p)%bool)).
Lemma indep_ret {A} (a : A) : indep (mret a).
Proof. intros k. unfold mret; simpl. now rewrite andb_true_r. Qed.
Lemma indep_missing {A} (a : A) r : indep (missing a r).
Proof. intros k. unfold missing; simpl. destruct r; simpl; now rewrite ?andb_true_r, ?andb_false_r. Qed.
Lemma indep_lift {A} (o : outcome A) : indep (lift o).
Proof. intros k. unfold lift. destruct o; simpl; auto. now rewrite andb_true_r. Qed.
Lemma indep_bind {A B} (m : M A) (f : A -> M B) : indep m -> (forall a, indep (f a)) -> indep (mbind m f).
Proof.
  intros Hm Hf k. unfold mbind. rewrite (Hm k). destruct (m true) as [[a b]| |]; simpl; auto.
  rewrite (Hf a (k && b)%bool), (Hf a b). destruct (f a true) as [[x y]| |]; simpl; auto. now rewrite andb_assoc.
Qed.
Create HintDb ind.
Global Hint Resolve indep_ret indep_missing indep_lift indep_bind : ind.
Ltac ind := repeat first
  [ apply indep_ret | apply indep_missing | apply indep_lift | solve [auto with ind]
  | (apply indep_bind; [|intros]) | match goal with |- indep (if ?b then _ else _) => destruct b | |- indep (match ?x with _ => _ end) => destruct x end ].
Lemma ind_parse {T} (rd : node -> option T) n nm x r : indep (parse rd n nm x r). Proof. unfold parse; ind. Qed.
Lemma ind_bool O n nm x r : indep (parse_bool O n nm x r). Proof. unfold parse_bool; cbv zeta; ind. Qed.
Lemma ind_m3 O n nm x r : indep (parse_m3 O n nm x r). Proof. unfold parse_m3; cbv zeta; ind. Qed.
Lemma ind_m4 O n nm x r : indep (parse_m4 O n nm x r).
Proof. unfold parse_m4; cbv zeta. match goal with |- context [node_found n ?l] => set (local := l) end. ind. Qed.
Lemma ind_config {T} P (rr : node -> option T) pf nm x r : (forall n a y z, indep (pf n a y z)) -> indep (parse_config P rr pf nm x r).
Proof. intros H. unfold parse_config; ind; apply H. Qed.
Lemma ind_yaml {T} P (pf : node -> string -> T -> bool -> M T) e s nm x r : (forall n a y z, indep (pf n a y z)) -> indep (ext_yaml P pf e s nm x r).
Proof. intros H. unfold ext_yaml; ind; apply H. Qed.
Lemma ind_external {T} P (rr : node -> option T) pf e s nm x r : (forall n a y z, indep (pf n a y z)) -> indep (parse_external P rr pf e s nm x r).
Proof. intros H. unfold parse_external; ind; apply ind_yaml, H. Qed.
Lemma ind_e3 P e s nm x r : indep (external_m3 P e s nm x r).
Proof. unfold external_m3; ind; apply ind_yaml; intros; apply ind_m3. Qed.
Lemma ind_e4 P e s nm x r : indep (external_m4 P e s nm x r).
Proof. unfold external_m4; ind; apply ind_yaml; intros; apply ind_m4. Qed.
Lemma ind_creal P nm x r : indep (cfg_real P nm x r). Proof. apply ind_config; intros; apply ind_parse. Qed.
Lemma ind_cint P nm x r : indep (cfg_int P nm x r). Proof. apply ind_config; intros; apply ind_parse. Qed.
Lemma ind_cstr P nm x r : indep (cfg_str P nm x r). Proof. apply ind_config; intros; apply ind_parse. Qed.
Lemma ind_cbool P nm x r : indep (cfg_bool P nm x r). Proof. apply ind_config; intros; apply ind_bool. Qed.
Lemma ind_ereal P e s nm x r : indep (ext_real P e s nm x r). Proof. apply ind_external; intros; apply ind_parse. Qed.
Lemma ind_estr P e s nm x r : indep (ext_str P e s nm x r). Proof. apply ind_external; intros; apply ind_parse. Qed.
Lemma ind_ereals P e s nm x r : indep (ext_reals P e s nm x r). Proof. apply ind_external; intros; apply ind_parse. Qed.
Lemma ind_eints P e s nm x r : indep (ext_ints P e s nm x r). Proof. apply ind_external; intros; apply ind_parse. Qed.
Global Hint Resolve ind_e3 ind_e4 ind_creal ind_cint ind_cstr ind_cbool ind_ereal ind_estr ind_ereals ind_eints : ind.
Lemma ind_read P d i : indep (read_cam P d i). Proof. unfold read_cam; cbv zeta; ind. Qed.
Global Hint Resolve ind_read : ind.
Lemma ind_cam P d c i : indep (load_cam P d c i). Proof. unfold load_cam; cbv zeta; ind. Qed.
Global Hint Resolve ind_cam : ind.
Lemma ind_cams P d l : forall c, indep (load_cams P d c l). Proof. induction l; simpl; intros; ind. Qed.
Lemma ind_mask P c i : indep (load_mask P c i). Proof. unfold load_mask; ind. Qed.
Global Hint Resolve ind_mask ind_cams : ind.
Lemma ind_masks P c l : indep (load_masks P c l). Proof. induction l; simpl; intros; ind. Qed.
Lemma ind_check n c : indep (check_sizes n c). Proof. unfold check_sizes; ind. Qed.
Lemma ind_opts P n : indep (load_options P n). Proof. unfold load_options; ind. Qed.
Lemma ind_imu P m : indep (load_imu P m). Proof. unfold load_imu; cbv zeta; ind. Qed.
Global Hint Resolve ind_masks ind_check ind_opts ind_imu : ind.
Lemma ind_init P : indep (load_init P). Proof. unfold load_init; ind. Qed.
Global Hint Resolve ind_init : ind.
Lemma ind_all P : indep (load_all P). Proof. unfold load_all; ind. Qed.
Global Hint Resolve ind_all : ind.

(** the value, whatever the flag *)
Definition gives {A} (m : M A) (a : A) (b : bool) : Prop := m true = Ok (a, b).
Lemma gives_of {A} (m : M A) k a k' : indep m -> m k = Ok (a, k') -> exists b, gives m a b /\ k' = (k && b)%bool.
Proof. intros H E. rewrite (H k) in E. unfold gives. destruct (m true) as [[x y]| |]; simpl in E; try discriminate. injection E as <- <-. eauto. Qed.
Lemma gives_at {A} (m : M A) k a b : indep m -> gives m a b -> m k = Ok (a, (k && b)%bool).
Proof. intros H E. rewrite (H k), E. reflexivity. Qed.
Lemma gives_bind {A B} (m : M A) (f : A -> M B) x k : indep m -> (forall a, indep (f a)) -> gives (mbind m f) x k ->
  exists a b c, gives m a b /\ gives (f a) x c /\ k = (b && c)%bool.
Proof.
  intros Hm Hf E. unfold gives, mbind in E. destruct (m true) as [[a b]| |] eqn:Em; simpl in E; try discriminate.
  destruct (gives_of _ _ _ _ (Hf a) E) as (c & G & K). exists a, b, c. auto.
Qed.
Lemma gives_bind_in {A B} (m : M A) (f : A -> M B) a b x c : indep (f a) -> gives m a b -> gives (f a) x c -> gives (mbind m f) x (b && c).
Proof. intros Hf Hm G. unfold gives, mbind. rewrite Hm. simpl. apply gives_at; auto. Qed.
Lemma gives_fun {A} (m : M A) a b a' b' : gives m a b -> gives m a' b' -> a = a' /\ b = b'.
Proof. unfold gives. intros E F. rewrite E in F. now injection F. Qed.
Lemma gives_ret {A} (a x : A) k : gives (mret a) x k -> x = a /\ k = true.
Proof. unfold gives, mret. intros E. now injection E as <- <-. Qed.
Lemma gives_lift {A} (o : outcome A) x k : gives (lift o) x k -> o = Ok x /\ k = true.
Proof. unfold gives, lift. destruct o; simpl; intros E; try discriminate. now injection E as <- <-. Qed.

Lemma flag_thm P : (forall k v k', load_all P k = Ok (v, k') -> k' = true -> k = true) /\
  (forall k v k', load_all P k = Ok (v, k') -> exists k'', load_all P true = Ok (v, k'') /\ k' = (k && k'')%bool).
Proof.
  split; intros k v k' E.
  - intros ->. destruct (gives_of _ _ _ _ (ind_all P) E) as (b & _ & K). symmetry in K. now apply andb_true_iff in K.
  - destruct (gives_of _ _ _ _ (ind_all P) E) as (b & G & K). exists b. split; auto.
Qed.

(** ** nodes *)
Lemma child_found n nm : child n nm <> None <-> node_found n nm = true.
Proof.
  destruct n; simpl; try (split; congruence). induction l as [|[a b] r IH]; simpl; [split; congruence|].
  destruct (String.eqb a nm); simpl; [split; congruence|exact IH].
Qed.
Lemma child_some n nm x : child n nm = Some x -> node_found n nm = true.
Proof. intros E. apply child_found. congruence. Qed.
Lemma child_none n nm : child n nm = None -> node_found n nm = false.
Proof. intros E. destruct (node_found n nm) eqn:F; auto. apply child_found in F. congruence. Qed.

(** ** booleans *)
Lemma upto_app c s t : (forall a, In a (list_ascii_of_string s) -> a <> c) -> upto c (s ++ t) = (s ++ upto c t)%string.
Proof.
  induction s as [|a s IH]; simpl; intros H; auto.
  destruct (Ascii.eqb_spec a c) as [E|E]; [exfalso; exact (H a (or_introl eq_refl) E)|]. f_equal. apply IH. auto.
Qed.
Lemma append_nil s : (s ++ "")%string = s. Proof. induction s; simpl; congruence. Qed.
Lemma text_trim s t : comment t -> (forall a, In a (list_ascii_of_string s) -> a <> "#"%char /\ a <> " "%char) -> upto " " (upto "#" (s ++ t)) = s.
Proof.
  intros C H. rewrite upto_app by (intros; now apply H). rewrite upto_app by (intros; now apply H).
  replace (upto " " (upto "#" t)) with EmptyString; [apply append_nil|].
  destruct t as [|a t]; simpl; auto. destruct C as [-> | ->]; reflexivity.
Qed.
Lemma text_chars b s : bool_text b s -> forall a, In a (list_ascii_of_string s) -> a <> "#"%char /\ a <> " "%char.
Proof.
  intros H a Ha. destruct b; unfold bool_text, yes, no in H; simpl in H; decompose [or] H; try contradiction; subst s;
  simpl in Ha; decompose [or] Ha; try contradiction; subst a; split; discriminate.
Qed.
Lemma bool_read O n nm x b y r : (forall s, oc_str O (NStr s) = Some s) -> child n nm = Some x -> bool_node x b ->
  gives (parse_bool O n nm y r) b true.
Proof.
  intros F C B. unfold parse_bool, gives. rewrite (child_some _ _ _ C), C. simpl negb. cbv iota.
  destruct B as [-> | (s & t & -> & T & K)]; [destruct b; reflexivity|].
  rewrite F. cbv zeta. rewrite (text_trim s t K (text_chars _ _ T)).
  destruct b; unfold bool_text, yes, no in T; simpl in T; decompose [or] T; try contradiction; subst s; reflexivity.
Qed.
(** the other way round *)
Lemma upto_split c s : exists t, s = (upto c s ++ t)%string /\ (t = EmptyString \/ exists r, t = String c r).
Proof.
  induction s as [|a s (t & E & H)]; simpl; [exists EmptyString; auto|].
  destruct (Ascii.eqb_spec a c) as [->|N]; [exists (String c s); simpl; eauto|]. exists t. simpl. split; [congruence|auto].
Qed.
Lemma append_assoc a b c : ((a ++ b) ++ c)%string = (a ++ b ++ c)%string.
Proof. induction a; simpl; congruence. Qed.
Lemma trim_split s : exists t, s = (upto " " (upto "#" s) ++ t)%string /\ comment t.
Proof.
  destruct (upto_split "#" s) as (t & E & H). destruct (upto_split " " (upto "#" s)) as (u & F & K).
  exists (u ++ t)%string. split; [rewrite E at 1; rewrite F at 1; apply append_assoc|].
  destruct K as [->|(r & ->)]; simpl; [|left; auto]. destruct H as [->|(r & ->)]; simpl; auto.
Qed.
Lemma bool_only O n nm s b y r : (forall s, oc_str O (NStr s) = Some s) -> child n nm = Some (NStr s) ->
  gives (parse_bool O n nm y r) b true -> exists u t, s = (u ++ t)%string /\ bool_text b u /\ comment t.
Proof.
  intros F C. unfold parse_bool, gives. rewrite (child_some _ _ _ C), C. simpl negb. cbv iota. rewrite F. cbv zeta.
  destruct (trim_split s) as (t & E & K). set (u := upto " " (upto "#" s)) in *.
  destruct (existsb (String.eqb u) ["1"; "true"; "True"; "TRUE"]%string) eqn:Y.
  - unfold mret. intros H. injection H as <-. exists u, t. repeat split; auto.
    apply existsb_exists in Y. destruct Y as (z & Hz & Q). apply String.eqb_eq in Q. now subst z.
  - destruct (existsb (String.eqb u) ["0"; "false"; "False"; "FALSE"]%string) eqn:N.
    + unfold mret. intros H. injection H as <-. exists u, t. repeat split; auto.
      apply existsb_exists in N. destruct N as (z & Hz & Q). apply String.eqb_eq in Q. now subst z.
    + unfold missing. discriminate.
Qed.

(** ** folders *)
Lemma has_free s : slash_free s <-> has "/" s = false.
Proof.
  induction s as [|a s IH]; simpl; [tauto|]. destruct (Ascii.eqb_spec a "/"); simpl; [split; [tauto|discriminate]|]. tauto.
Qed.
Lemma has_app c a b : has c (a ++ String c b) = true.
Proof. induction a; simpl; [now rewrite Ascii.eqb_refl|]. now rewrite IHa, orb_true_r. Qed.
Lemma upto_last_app d b : slash_free b -> upto_last "/" (d ++ "/" ++ b) = d.
Proof.
  intros H. apply has_free in H. induction d as [|a d IH]; simpl; [now rewrite H|].
  change (String "/" b) with ("/" ++ b)%string. simpl. rewrite has_app. f_equal. exact IH.
Qed.
Lemma folder_thm P d : in_dir P d -> config_folder P = (d ++ "/")%string.
Proof. intros (b & E & F). unfold config_folder. now rewrite E, upto_last_app. Qed.
Lemma upto_last_free s : slash_free s -> upto_last "/" s = s.
Proof.
  induction s as [|a s IH]; simpl; auto. intros (N & F). rewrite (proj1 (has_free s) F).
  destruct (Ascii.eqb_spec a "/"); [contradiction|]. f_equal. auto.
Qed.
Lemma folder_bare P : slash_free (ps_path P) -> config_folder P = (ps_path P ++ "/")%string.
Proof. intros F. unfold config_folder. now rewrite upto_last_free. Qed.

(** ** values of a complete section *)
Lemma ros_none {T} P (rr : node -> option T) nm : ps_ros P nm = None -> ros P rr nm = None.
Proof. unfold ros. now intros ->. Qed.
Lemma config_says {T} P (rr : node -> option T) pf nm x r n v b : quiet P -> says P nm n ->
  (forall root, child root nm = Some n -> gives (pf root nm x r) v b) -> gives (parse_config P rr pf nm x r) v b.
Proof. intros Q (root & E & C) H. unfold parse_config. rewrite (ros_none P rr nm (Q nm)), E. apply H. exact C. Qed.
Lemma parse_gives {T} (rd : node -> option T) n nm c v x r : child n nm = Some c -> rd c = Some v -> gives (parse rd n nm x r) v true.
Proof. intros C R. unfold parse, gives. now rewrite (child_some _ _ _ C), C, R. Qed.
Lemma yaml_section {T} P (pf : node -> string -> T -> bool -> M T) ext s sec nm x r v b : (forall t, oc_str (ps_oc P) (NStr t) = Some t) ->
  section P ext s sec -> gives (pf sec nm x r) v b -> gives (ext_yaml P pf ext s nm x r) v b.
Proof.
  intros F (d & path & f & D & (root & E & C) & O & K) G. unfold ext_yaml, gives, mbind, lift. rewrite E, (child_some _ _ _ C), C, F. simpl.
  rewrite (folder_thm P d D), append_assoc, O, (child_some _ _ _ K), K. exact G.
Qed.
Lemma section_says P ext s sec : section P ext s sec -> exists n, says P ext n.
Proof. intros (d & p & f & _ & S & _). eauto. Qed.

Lemma matrix_cell O n A d s i j : (forall m x, num m = Some x -> oc_real O m = Some x) -> matrix_node d n A -> (i < d)%nat -> (j < d)%nat ->
  read_cell O n (s, true) (i, j) = (set_cell s i j (A i j), true).
Proof.
  intros F (rows & -> & H) Hi Hj. destruct (H i Hi) as (r & Er & Hr). destruct (Hr j Hj) as (x & Ex & Hx).
  unfold read_cell. simpl. rewrite Er. simpl. rewrite Ex, (F _ _ Hx). reflexivity.
Qed.
Lemma matrix_fold O n A d : (forall m x, num m = Some x -> oc_real O m = Some x) -> matrix_node d n A ->
  forall l s, (forall p, In p l -> (fst p < d)%nat /\ (snd p < d)%nat) ->
  exists B, fold_left (read_cell O n) l (s, true) = (B, true) /\ (forall i j, In (i, j) l -> B i j = A i j) /\ (forall i j, ~ In (i, j) l -> B i j = s i j).
Proof.
  intros F H l. induction l as [|[i j] l IH]; simpl; intros s Hl; [exists s; repeat split; intros; tauto|].
  destruct (Hl (i, j) (or_introl eq_refl)) as (Hi & Hj). simpl in Hi, Hj.
  rewrite (matrix_cell O n A d s i j F H Hi Hj). destruct (IH (set_cell s i j (A i j)) ltac:(auto)) as (B & E & B1 & B2).
  exists B. split; [exact E|]. split.
  - intros i' j' [Q|Q]; [|auto]. injection Q as <- <-.
    assert (D : forall p q : nat * nat, {p = q} + {p <> q}) by (decide equality; apply Nat.eq_dec).
    destruct (in_dec D (i, j) l) as [Y|N]; [auto|]. rewrite B2 by auto. unfold set_cell. now rewrite !Nat.eqb_refl.
  - intros i' j' N. rewrite B2 by tauto. unfold set_cell. destruct (Nat.eqb_spec i' i), (Nat.eqb_spec j' j); simpl; auto. subst. tauto.
Qed.
Lemma matrix_read O n A d : (forall m x, num m = Some x -> oc_real O m = Some x) -> matrix_node d n A ->
  exists B, read_cells O d n = (B, true) /\ forall i j, (i < d)%nat -> (j < d)%nat -> B i j = A i j.
Proof.
  intros F H. destruct (matrix_fold O n A d F H (cells d) mid) as (B & E & B1 & _).
  - intros [i j] Hp. unfold cells in Hp. apply in_prod_iff in Hp. rewrite !in_seq in Hp. simpl. lia.
  - exists B. split; [exact E|]. intros i j Hi Hj. apply B1. unfold cells. apply in_prod_iff. rewrite !in_seq. lia.
Qed.
Lemma to_m3_ext A B : (forall i j, (i < 3)%nat -> (j < 3)%nat -> B i j = A i j) -> to_m3 B = block_of A.
Proof. intros H. unfold to_m3, block_of. now rewrite !H by lia. Qed.
Lemma to_se3_ext A B : (forall i j, (i < 4)%nat -> (j < 4)%nat -> B i j = A i j) -> to_se3 B = pose_of A.
Proof. intros H. unfold to_se3, to_m3, pose_of, block_of. now rewrite !H by lia. Qed.
Lemma m3_read O sec nm X x r : (forall m v, num m = Some v -> oc_real O m = Some v) -> m3_entry sec nm X -> gives (parse_m3 O sec nm x r) X true.
Proof.
  intros F (n & A & C & H & <-). destruct (matrix_read O n A 3 F H) as (B & E & HB).
  unfold parse_m3, gives. rewrite (child_some _ _ _ C), C. cbv zeta. simpl negb. cbv iota. rewrite E. simpl. unfold mret. now rewrite (to_m3_ext A B HB).
Qed.
