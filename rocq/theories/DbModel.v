(** Model of the feature tracks: ov_core/src/feat/Feature.{h,cpp} and FeatureDatabase.{h,cpp}.

    Simplifications: the mutex is not modelled (each call is atomic); float coordinates are reals;
    std::unordered_map is an association list whose order is the iteration order (theorems hold
    for every order); the shared pointers to features are modelled by the feature values, a
    feature inside the database being addressed by its id. *)
From Coq Require Import Reals List Arith ZArith Bool.
From Verif Require Import RBool Outcome GeoModel.
Import ListNotations.
Open Scope R_scope.

(** ** std::unordered_map with size_t keys *)
(** Feature.h 49-55, FeatureDatabase.h 166 *)
Definition amap (A : Type) := list (nat * A).
(** find / at [Feature.h 49-55, FeatureDatabase.h 166] *)
Fixpoint alook {A} (m : amap A) (k : nat) : option A :=
  match m with
  | [] => None
  | (k', v) :: m' => if Nat.eqb k k' then Some v else alook m' k
  end.
(** operator[] = v [Feature.h 49-55, FeatureDatabase.h 166] *)
Fixpoint aset {A} (m : amap A) (k : nat) (v : A) : amap A :=
  match m with
  | [] => [(k, v)]
  | (k', v') :: m' => if Nat.eqb k k' then (k', v) :: m' else (k', v') :: aset m' k v
  end.
(** operator[] as a value: missing keys are default constructed (here: the empty vector) [Feature.h 49-55, FeatureDatabase.h 166] *)
Definition aget {A} (m : amap (list A)) (k : nat) : list A :=
  match alook m k with Some l => l | None => [] end.
(** erase(key) [Feature.h 49-55, FeatureDatabase.h 166] *)
Definition aerase {A} (m : amap A) (k : nat) : amap A :=
  filter (fun e => negb (Nat.eqb (fst e) k)) m.

(** Feature.h 49: the first two entries of a VectorXf *)
Definition uv := (R * R)%type.

(** Feature.h 39-71; [f_pos] holds anchor_cam_id, anchor_clone_timestamp, p_FinA and p_FinG. *)
Record feature := mkF {
  f_id : nat; f_del : bool;
  f_uvs : amap (list uv); f_uvn : amap (list uv); f_ts : amap (list R);
  f_pos : Z * R * v3 * v3 }.
(** Feature.h 39-71 (as above) *)
Definition set_meas (f : feature) (a b : amap (list uv)) (c : amap (list R)) : feature :=
  mkF (f_id f) (f_del f) a b c (f_pos f).
(** Feature.h 39-71 (as above) *)
Definition set_del (f : feature) (d : bool) : feature :=
  mkF (f_id f) d (f_uvs f) (f_uvn f) (f_ts f) (f_pos f).
(** Feature.h 39-71 (as above) *)
Definition set_pos (f : feature) (p : Z * R * v3 * v3) : feature :=
  mkF (f_id f) (f_del f) (f_uvs f) (f_uvn f) (f_ts f) p.

(** [std::find(l.begin(), l.end(), t) != l.end()] [Feature.cpp 42, 71] *)
Definition tfind (l : list R) (t : R) : bool := existsb (fun x => Reqb x t) l.

(** ** Feature.cpp: removal of measurements *)

(** The while loop with the three iterators: Feature.cpp 42-52, 70-80, 98-108. *)
Fixpoint erase_loop (drop : R -> bool) (ts : list R) (us ns : list uv)
  : outcome (list R * list uv * list uv) :=
  match ts with
  | [] => Ok ([], us, ns)
  | t :: ts' =>
      match us, ns with
      | u :: us', n :: ns' =>
          do r <- erase_loop drop ts' us' ns';
          let '(a, b, c) := r in
          Ok (if drop t then (a, b, c) else (t :: a, u :: b, n :: c))
      | _, _ => UB
      end
  end.
(** The body for one camera: the asserts (Feature.cpp 33-34, 61-62, 89-90) and the loop. *)
Definition clean_cam (drop : R -> bool) (f : feature) (cam : nat) : outcome feature :=
  let ts := aget (f_ts f) cam in
  let us := aget (f_uvs f) cam in
  let ns := aget (f_uvn f) cam in
  guard ((length ts =? length us) && (length ts =? length ns))%nat%bool UB
    (do r <- erase_loop drop ts us ns;
     let '(a, b, c) := r in
     Ok (set_meas f (aset (f_uvs f) cam b) (aset (f_uvn f) cam c) (aset (f_ts f) cam a))).
(** Feature.cpp 33-34, 61-62, 89-90 (as above) *)
Definition clean_feature (drop : R -> bool) (f : feature) : outcome feature :=
  ofold (clean_cam drop) (map fst (f_ts f)) f.

(** Feature.cpp 26-53 *)
Definition clean_old_measurements (valid : list R) : feature -> outcome feature :=
  clean_feature (fun t => negb (tfind valid t)).
(** Feature.cpp 55-81 *)
Definition clean_invalid_measurements (invalid : list R) : feature -> outcome feature :=
  clean_feature (fun t => tfind invalid t).
(** Feature.cpp 83-109 *)
Definition clean_older_measurements (ts : R) : feature -> outcome feature :=
  clean_feature (fun t => Rleb t ts).

(** ** FeatureDatabase.cpp *)
(** FeatureDatabase.h 166 *)
Definition db := amap feature.

(** FeatureDatabase.cpp 29-39 *)
Definition get_feature (d : db) (id : nat) (remove : bool) : option feature * db :=
  match alook d id with
  | Some f => (Some f, if remove then aerase d id else d)
  | None => (None, d)
  end.

(** FeatureDatabase.cpp 41-57: every field of the destination is overwritten. *)
Definition get_feature_clone (d : db) (id : nat) (dst : feature) : bool * feature :=
  match alook d id with
  | Some f => (true, mkF (f_id f) (f_del f) (f_uvs f) (f_uvn f) (f_ts f) (f_pos f))
  | None => (false, dst)
  end.

(** [m[k].push_back(x)] [FeatureDatabase.cpp 59-85] *)
Definition push {A} (m : amap (list A)) (k : nat) (x : A) : amap (list A) :=
  aset m k (aget m k ++ [x]).
(** FeatureDatabase.cpp 59-85 *)
Definition push_meas (f : feature) (t : R) (cam : nat) (u n : uv) : feature :=
  set_meas f (push (f_uvs f) cam u) (push (f_uvn f) cam n) (push (f_ts f) cam t).
(** std::make_shared<Feature>() (value-initialised) with featid set [FeatureDatabase.cpp 59-85] *)
Definition new_feature (id : nat) : feature :=
  mkF id false [] [] [] ((-1)%Z, 0, v3zero, v3zero).
(** FeatureDatabase.cpp 59-85 *)
Definition update_feature (d : db) (id : nat) (t : R) (cam : nat) (u n : uv) : db :=
  match alook d id with
  | Some f => aset d id (push_meas f t cam u n)
  | None => aset d id (push_meas (new_feature id) t cam u n)
  end.

(** The iteration shared by FeatureDatabase.cpp 87-126, 128-167 and 169-209: returned features and remaining map. *)
Fixpoint query_loop (pred : feature -> bool) (remove skip : bool) (l : db) : list feature * db :=
  match l with
  | [] => ([], [])
  | e :: l' =>
      let '(r, k) := query_loop pred remove skip l' in
      if (skip && f_del (snd e))%bool then (r, e :: k)
      else if pred (snd e) then (snd e :: r, if remove then k else e :: k)
      else (r, e :: k)
  end.

(** FeatureDatabase.cpp 101-107: last timestamp of some camera >= t *)
Definition has_newer (t : R) (f : feature) : bool :=
  existsb (fun p => match nth_error (snd p) (length (snd p) - 1) with
                    | Some x => Rleb t x
                    | None => false
                    end) (f_ts f).
(** FeatureDatabase.cpp 101-107 (as above) *)
Definition features_not_containing_newer (t : R) (remove skip : bool) (d : db) : list feature * db :=
  query_loop (fun f => negb (has_newer t f)) remove skip d.
(** FeatureDatabase.cpp 142-148: first timestamp of some camera < t *)
Definition has_older (t : R) (f : feature) : bool :=
  existsb (fun p => match nth_error (snd p) 0 with
                    | Some x => Rltb x t
                    | None => false
                    end) (f_ts f).
(** FeatureDatabase.cpp 142-148 (as above) *)
Definition features_containing_older (t : R) (remove skip : bool) (d : db) : list feature * db :=
  query_loop (has_older t) remove skip d.
(** FeatureDatabase.cpp 183-189 *)
Definition has_time (t : R) (f : feature) : bool :=
  existsb (fun p => tfind (snd p) t) (f_ts f).
(** FeatureDatabase.cpp 183-189 (as above) *)
Definition features_containing (t : R) (remove skip : bool) (d : db) : list feature * db :=
  query_loop (has_time t) remove skip d.

(** FeatureDatabase.cpp 211-224 *)
Fixpoint cleanup (l : db) : db :=
  match l with
  | [] => []
  | e :: l' => if f_del (snd e) then cleanup l' else e :: cleanup l'
  end.

(** [ct_meas]: FeatureDatabase.cpp 231-234, 251-254 *)
Definition count_meas (f : feature) : nat :=
  fold_left (fun a p => (a + length (snd p))%nat) (f_ts f) 0%nat.
(** The loop of FeatureDatabase.cpp 226-243 and 245-263. *)
Fixpoint clean_loop (clean : feature -> outcome feature) (l : db) : outcome db :=
  match l with
  | [] => Ok []
  | (id, f) :: l' =>
      do f' <- clean f;
      do r <- clean_loop clean l';
      Ok (if (count_meas f' <? 1)%nat then r else (id, f') :: r)
  end.
(** FeatureDatabase.cpp 226-243 and 245-263 (as above) *)
Definition cleanup_measurements (t : R) : db -> outcome db := clean_loop (clean_older_measurements t).
(** FeatureDatabase.cpp 226-243 and 245-263 (as above) *)
Definition cleanup_measurements_exact (t : R) : db -> outcome db :=
  clean_loop (clean_invalid_measurements [t]).

(** FeatureDatabase.cpp 265-276 *)
Definition oldest_step (acc : R) (p : nat * list R) : R :=
  match nth_error (snd p) 0 with
  | Some x => if (Reqb acc (-1) || Rltb x acc)%bool then x else acc
  | None => acc
  end.
(** FeatureDatabase.cpp 265-276 (as above) *)
Definition get_oldest_timestamp (d : db) : R :=
  fold_left (fun acc e => fold_left oldest_step (f_ts (snd e)) acc) d (-1).

(** The loop FeatureDatabase.cpp 298-305: [snap] is the copy temp_times taken before it; map::at on a missing key and
    vector::at out of range throw (terminate). *)
Fixpoint append_loop (snap : list R) (ts : list R) (us ns : list uv) (acc : feature) (cam : nat)
  : outcome feature :=
  match ts with
  | [] => Ok acc
  | t :: ts' =>
      if tfind snap t then append_loop snap ts' (tl us) (tl ns) acc cam
      else
        match us, ns, alook (f_ts acc) cam, alook (f_uvs acc) cam, alook (f_uvn acc) cam with
        | u :: us', n :: ns', Some a, Some b, Some c =>
            append_loop snap ts' us' ns'
              (set_meas acc (aset (f_uvs acc) cam (b ++ [u])) (aset (f_uvn acc) cam (c ++ [n]))
                            (aset (f_ts acc) cam (a ++ [t]))) cam
        | _, _, _, _, _ => Exit
        end
  end.
(** FeatureDatabase.cpp 287-307: one camera of one known feature. *)
Definition append_cam (src : feature) (acc : feature) (p : nat * list R) : outcome feature :=
  let cam := fst p in
  match alook (f_ts acc) cam with
  | None =>
      match alook (f_ts src) cam, alook (f_uvs src) cam, alook (f_uvn src) cam with
      | Some a, Some b, Some c =>
          Ok (set_meas acc (aset (f_uvs acc) cam b) (aset (f_uvn acc) cam c)
                           (aset (f_ts acc) cam a))
      | _, _, _ => Exit
      end
  | Some snap =>
      append_loop snap (aget (f_ts src) cam) (aget (f_uvs src) cam) (aget (f_uvn src) cam) acc cam
  end.
(** FeatureDatabase.cpp 282-320: one feature of the other database. *)
Definition append_feature (d : db) (e : nat * feature) : outcome db :=
  match alook d (fst e) with
  | Some f => do f' <- ofold (append_cam (snd e)) (f_ts (snd e)) f; Ok (aset d (fst e) f')
  | None =>
      Ok (aset d (fst e) (set_meas (new_feature (f_id (snd e)))
                            (f_uvs (snd e)) (f_uvn (snd e)) (f_ts (snd e))))
  end.
(** FeatureDatabase.cpp 278-322 *)
Definition append_new_measurements (d other : db) : outcome db := ofold append_feature other d.

(** ** Calls made on a database by the front-end, the updaters and the estimator *)
(** FeatureDatabase.cpp 29-321 *)
Inductive dbop :=
| DUpdate (id : nat) (t : R) (cam : nat) (u n : uv)
| DGet (id : nat) (remove : bool)
| DNewer (t : R) (remove skip : bool)
| DOlder (t : R) (remove skip : bool)
| DContain (t : R) (remove skip : bool)
| DCleanup
| DCleanMeas (t : R)
| DCleanExact (t : R)
| DMark (id : nat)                        (* feature->to_delete = true *)
| DCleanOld (id : nat) (valid : list R)   (* feature->clean_old_measurements(clonetimes) *)
| DCleanInvalid (id : nat) (inv : list R)
| DSetPos (id : nat) (p : Z * R * v3 * v3) (* triangulation results *)
| DAppend (other : db).

(** helper: a change through the shared_ptr found in the map, FeatureDatabase.h 166 *)
Definition on_feature (d : db) (id : nat) (g : feature -> outcome feature) : outcome db :=
  match alook d id with
  | Some f => do f' <- g f; Ok (aset d id f')
  | None => Ok d
  end.
(** FeatureDatabase.cpp 29-321: the call as a change of the database *)
Definition dbexec (d : db) (o : dbop) : outcome db :=
  match o with
  | DUpdate id t cam u n => Ok (update_feature d id t cam u n)
  | DGet id remove => Ok (snd (get_feature d id remove))
  | DNewer t remove skip => Ok (snd (features_not_containing_newer t remove skip d))
  | DOlder t remove skip => Ok (snd (features_containing_older t remove skip d))
  | DContain t remove skip => Ok (snd (features_containing t remove skip d))
  | DCleanup => Ok (cleanup d)
  | DCleanMeas t => cleanup_measurements t d
  | DCleanExact t => cleanup_measurements_exact t d
  | DMark id => on_feature d id (fun f => Ok (set_del f true))
  | DCleanOld id valid => on_feature d id (clean_old_measurements valid)
  | DCleanInvalid id inv => on_feature d id (clean_invalid_measurements inv)
  | DSetPos id p => on_feature d id (fun f => Ok (set_pos f p))
  | DAppend other => append_new_measurements d other
  end.
