(** The constructors of PGM (include/shard/PGM.h) and TrieSpline
    (include/shard/TrieSpline.h).  They have their own copies of the two loops of
    util/SortedMerge.h, with more actions on a record that is kept.

    Simplifications: the queue and the cursors are those of MergeModel.v; the filter
    m_bf is always null (PGM.h:44, 116, TrieSpline.h:46, 133); shard pointers are not null;
    keys are integers. *)
From Coq Require Import List Arith ZArith NArith Lia Bool.
From Verif Require Import Base RecordModel BufferModel MergeModel.
Import ListNotations.

(** ts::Builder, which is not part of /repo: the two bounds it is created with, and the
    keys added so far, latest first.  Its AddKey asserts that the key is between the
    bounds and not smaller than the one before. *)
Record tbuild := TB { tb_min : Z; tb_max : Z; tb_keys : list Z }.
Definition add_key (k : Z) (b : tbuild) : res tbuild :=
  if ((tb_min b <=? k) && (k <=? tb_max b)
      && match tb_keys b with [] => true | p :: _ => p <=? k end)%Z
  then Ok (TB (tb_min b) (tb_max b) (k :: tb_keys b))
  else Fail FAssert.

Section Learn.
Context {R : Type} {RO : RecOps R} {KO : KeyOps R}.
Variable qlt : qorder R.

Definition wkey (w : wrapped R) : Z := rkey (wrec w).

(** ** The loops, with an action on the records that are kept *)

Section Loops.
Context {X : Type}.
Variable note : wrapped R -> X -> res X.

(** PGM.h:76-102, TrieSpline.h:81-115. *)
Fixpoint scan_loop (fuel : nat) (l : list (wrapped R)) (o : marr R) (x : X) : res (marr R * X) :=
  match fuel with
  | O => Fail FFuel
  | S fuel' =>
      match l with
      | [] => Ok (finish o, x)
      | base :: l' =>
          let keep :=
            if is_del base then scan_loop fuel' l' o x
            else do x' <- note base x; scan_loop fuel' l' (emit (mask3 base) o) x' in
          match l' with
          | nxt :: l'' =>
              if negb (is_ts base) && req (wrec base) (wrec nxt) && is_ts nxt
              then scan_loop fuel' l'' o x
              else keep
          | [] => keep
          end
      end
  end.

(** The else branch of the merge, PGM.h:155-177, TrieSpline.h:186-216. *)
Definition learn_act (w : wrapped R) (a : res (marr R * X)) : res (marr R * X) :=
  do (o, x) <- a;
  if is_del w then Ok (o, x) else do x' <- note w x; Ok (emit w o, x').

(** PGM.h:137-178, TrieSpline.h:168-217: the merge. *)
Definition learn_merge (cs : list (list (wrapped R))) (q : list (qent R)) (x : X) : res (marr R * X) :=
  do a <- merge_loop qlt learn_act (S (length (concat cs))) cs q (Ok (MArr [] 0 0, x));
  do (o, x') <- a;
  Ok (finish o, x').
End Loops.

Definition shard_of_arr (m : marr R) : shard R := Shard (m_data m) (m_rec m) (m_ts m).

(** ** PGM *)

(** keys.emplace_back, PGM.h:91, 159. *)
Definition pgm_note (w : wrapped R) (ks : list Z) : res (list Z) := Ok (wkey w :: ks).

(** A PGM shard: the array with its counts, and the keys given to PGMIndex (none when
    m_pgm stays as default-constructed, PGM.h:109-111, 183-185). *)
Definition pgm : Type := (shard R * option (list Z))%type.
Definition pgm_done (m : marr R) (ks : list Z) : pgm :=
  (shard_of_arr m, if 0 <? m_rec m then Some (rev ks) else None).

(** PGM.h:43-112. *)
Definition pgm_from_view (d : list (wrapped R)) (v : view) : res pgm :=
  do l <- v_copy d v;
  let l' := wsort l in
  do (m, ks) <- scan_loop pgm_note (S (length l')) l' (MArr [] 0 0) [];
  Ok (pgm_done m ks).

(** PGM.h:114-186. *)
Definition pgm_from_shards (ss : list (shard R)) : res pgm :=
  let '(cs, attempt_reccnt, _) := build_cursor_vec ss in
  do q <- init_pushes 0 cs;
  do (m, ks) <- learn_merge pgm_note cs q [];
  if m_rec m <=? attempt_reccnt then Ok (pgm_done m ks) else Fail FOob.

(** ** TrieSpline *)

(** The array with its counts, m_min_key and m_max_key. *)
Record spline := Spline { sp_shard : shard R; sp_min : Z; sp_max : Z }.

(** AddKey and the updates of m_min_key and m_max_key (TrieSpline.h:96, 106-112, 190,
    205-211). *)
Definition ts_note (w : wrapped R) (x : tbuild * (Z * Z)) : res (tbuild * (Z * Z)) :=
  let '(b, (mn, mx)) := x in
  do b' <- add_key (wkey w) b;
  Ok (b', (if (wkey w <? mn)%Z then wkey w else mn, if (mx <? wkey w)%Z then wkey w else mx)).

(** TrieSpline.h:40-125, with the final state of the builder.  The first and the last
    record of the sorted copy are read also when there is none (lines 68-69). *)
Definition ts_from_view (d : list (wrapped R)) (v : view) : res (spline * tbuild) :=
  do l <- v_copy d v;
  let l' := wsort l in
  do first <- nth_res 0 l';
  do last <- nth_res (v_count v - 1) l';
  do (m, x) <- scan_loop ts_note (S (length l')) l' (MArr [] 0 0)
                 (TB (wkey first) (wkey last) [], (wkey last, wkey first));
  let '(b, (mn, mx)) := x in
  Ok (Spline (shard_of_arr m) mn mx, b).

(** TrieSpline.h:153-161. *)
Definition max_of (ts : list spline) (m : Z) : Z :=
  fold_left (fun m t => if (m <? sp_max t)%Z then sp_max t else m) ts m.
Definition min_of (ts : list spline) (m : Z) : Z :=
  fold_left (fun m t => if (sp_min t <? m)%Z then sp_min t else m) ts m.

(** TrieSpline.h:127-225.  [shards[0]] is read also when there is none (lines 150-151). *)
Definition ts_from_shards (ts : list spline) : res (spline * tbuild) :=
  let '(cs, attempt_reccnt, _) := build_cursor_vec (map sp_shard ts) in
  do q <- init_pushes 0 cs;
  do t0 <- nth_res 0 ts;
  let mx := max_of ts (sp_max t0) in
  let mn := min_of ts (sp_min t0) in
  do (m, x) <- learn_merge ts_note cs q (TB mn mx [], (mx, mn));
  let '(b, (mn', mx')) := x in
  if m_rec m <=? attempt_reccnt then Ok (Spline (shard_of_arr m) mn' mx', b) else Fail FOob.

(** ** As kinds of shards

    A shard of an index is its array and counts; m_min_key and m_max_key of a shard with
    records are the first and the last key of the array (C77). *)
Definition sp_of (s : shard R) : spline :=
  Spline s (match s_data s with w :: _ => wkey w | [] => 0%Z end)
           (match rev (s_data s) with w :: _ => wkey w | [] => 0%Z end).

Definition pgm_shards : builders R :=
  Builders (fun d v => do p <- pgm_from_view d v; Ok (fst p))
           (fun ss => do p <- pgm_from_shards ss; Ok (fst p)).
Definition spline_shards : builders R :=
  Builders (fun d v => do p <- ts_from_view d v; Ok (sp_shard (fst p)))
           (fun ss => do p <- ts_from_shards (map sp_of ss); Ok (sp_shard (fst p))).

End Learn.
Arguments spline R : clear implicits.
Arguments pgm R : clear implicits.
