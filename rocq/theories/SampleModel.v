(** Independent range sampling (include/query/irs.h) and weighted set sampling
    (include/query/wss.h), as executed by DynamicExtension.h:609-680 on a view and a
    list of shards.

    Simplifications: the random numbers are an arbitrary stream, one element per draw;
    psudb::Alias is a function from the weights and the draw to an index; weights are
    natural numbers; the bounds of a range are in order (otherwise irs.h:67 underflows). *)
From Coq Require Import List Arith ZArith NArith Bool.
From Verif Require Import Base RecordModel BufferModel MergeModel StructModel ExtModel QueryModel.
Import ListNotations.

Section Sample.
Context {R : Type} {RO : RecOps R}.

Variable rng : nat -> nat.
Variable alias : list nat -> nat -> nat.

(** gsl_rng_uniform_int(rng, n): the library aborts if n = 0. *)
Definition draw (c n : nat) : res nat := if n =? 0 then Fail FAssert else Ok (rng c mod n).

(** irs.h:148-155, wss.h:122-130: [s] draws, each counted for the buffer (0) or a shard. *)
Fixpoint spread (s c : nat) (weights sizes : list nat) : res (list nat) :=
  match s with
  | O => Ok sizes
  | S s' =>
      let i := alias weights c in
      do n <- nth_res i sizes;
      spread s' (S c) weights (set_nth i (S n) sizes)
  end.

(** ** irs::Query *)
Context {KO : KeyOps R}.
Variables lbf ubf : list (wrapped R) -> Z -> res nat.

Definition in_range (l u : Z) (w : wrapped R) : bool := (l <=? rkey (wrec w))%Z && (rkey (wrec w) <=? u)%Z.

(** irs.h:31-37, 56-72: lower_idx, upper_idx and total_weight.  An upper index below the
    lower one, which takes an upper bound below the lower one, gives a weight of almost
    2^64: the random number generator refuses such a bound and aborts, or the record is
    read out of the array, once the shard is sampled.  The model fails here at once. *)
Record irs_local := IL { il_lower : nat; il_upper : nat; il_weight : nat }.
Definition irs_preproc (l u : Z) (d : list (wrapped R)) : res irs_local :=
  do i <- lbf d l;
  do j <- ubf d u;
  if i =? length d then Ok (IL i j 0) else if j <? i then Fail FOob else Ok (IL i j (j - i)).

(** irs.h:74-96, 114-120: the records the buffer is sampled from. *)
Definition irs_pool (rej : bool) (l u : Z) (ws : list (wrapped R)) : list (wrapped R) :=
  if rej then ws else filter (in_range l u) ws.

(** irs.h:98-164 for a query with a buffer; the sample sizes of the buffer and shards. *)
Definition irs_distribute (s c : nat) (weights : list nat) : res (list nat) :=
  if sum_list weights =? 0 then Ok (repeat 0 (length weights))
  else spread s c weights (repeat 0 (length weights)).

(** irs.h:177-184: [n] samples.  A null record is dereferenced. *)
Fixpoint irs_draws (n c : nat) (d : list (wrapped R)) (q : irs_local) : res (list (wrapped R)) :=
  match n with
  | O => Ok []
  | S n' =>
      let len := il_upper q - il_lower q in
      do x <- (if 0 <? len then draw c len else Ok 0);
      match nth_error d (il_lower q + x) with
      | None => Fail FNull
      | Some w => do r <- irs_draws n' (S c) d q; Ok (w :: r)
      end
  end.

(** irs.h:166-187. *)
Definition irs_local_query (n c : nat) (d : list (wrapped R)) (q : irs_local) : res (list (wrapped R)) :=
  if (n =? 0) || (il_lower q =? length d) then Ok [] else irs_draws n c d q.

(** irs.h:189-215: [n] samples of the pool, those outside the range rejected. *)
Fixpoint irs_buffer_query (n c : nat) (l u : Z) (pool : list (wrapped R)) : res (list (wrapped R)) :=
  match n with
  | O => Ok []
  | S n' =>
      do x <- draw c (length pool);
      do w <- nth_res x pool;
      do r <- irs_buffer_query n' (S c) l u pool;
      Ok (if in_range l u w then w :: r else r)
  end.

(** DynamicExtension.h:642-646 over the shards. *)
Fixpoint irs_shards (sizes : list nat) (c : nat) (ds : list (list (wrapped R))) (qs : list irs_local)
  : res (list (wrapped R)) :=
  match sizes, ds, qs with
  | n :: sizes', d :: ds', q :: qs' =>
      do a <- irs_local_query n c d q;
      do b <- irs_shards sizes' (c + n) ds' qs';
      Ok (a ++ b)
  | _, _, _ => Ok []
  end.

(** DynamicExtension.h:632-662 with irs.h:217-225: one round. *)
Definition irs_round (sizes : list nat) (c : nat) (l u : Z) (pool : list (wrapped R))
    (ds : list (list (wrapped R))) (qs : list irs_local) : res (list (wrapped R)) :=
  match sizes with
  | [] => Fail FOob
  | n :: sizes' =>
      do a <- irs_buffer_query n c l u pool;
      do b <- irs_shards sizes' (c + n) ds qs;
      Ok (a ++ b)
  end.

(** DynamicExtension.h:632-665 with irs.h:227-237: [s] is parms->sample_size, [out] the
    output so far.  Running out of [fuel] rounds is a fault of its own. *)
Fixpoint irs_loop (fuel s c : nat) (sizes weights : list nat) (l u : Z) (pool : list (wrapped R))
    (ds : list (list (wrapped R))) (qs : list irs_local) (out : list (wrapped R)) : res (list (wrapped R)) :=
  match fuel with
  | O => Fail FFuel
  | S fuel' =>
      do r <- irs_round sizes c l u pool ds qs;
      let out' := out ++ r in
      let c' := c + sum_list sizes in
      if length out' <? s then
        let s' := s - length out' in
        do sizes' <- irs_distribute s' c' weights;
        irs_loop fuel' s' (c' + s') sizes' weights l u pool ds qs out'
      else Ok out'
  end.

(** A query for [s] samples from a view showing [ws] and the shards [ds]. *)
Definition irs_query (fuel : nat) (rej : bool) (s : nat) (l u : Z) (ws : list (wrapped R))
    (ds : list (list (wrapped R))) : res (list R) :=
  do qs <- map_res (irs_preproc l u) ds;
  let pool := irs_pool rej l u ws in
  let weights := length pool :: map il_weight qs in
  do sizes <- irs_distribute s 0 weights;
  do out <- irs_loop fuel s s sizes weights l u pool ds qs [];
  Ok (map wrec out).

(** ** wss::Query *)
Variable rweight : R -> nat.

(** gsl_rng_uniform returns k / [grain] for a k below [grain] (2^32 for the generators in
    use). *)
Variable grain : nat.

(** Alias.h:161-163: an index into the shard's weights. *)
Variable wsample : list nat -> nat -> nat.

Definition weights_of (ws : list (wrapped R)) : list nat := map (fun w => rweight (wrec w)) ws.

(** wss.h:74-81. *)
Definition max_weight (ws : list (wrapped R)) : nat := fold_right Nat.max 0 (weights_of ws).

(** wss.h:91-131: the sample sizes are increased, not set. *)
Definition wss_distribute (s c : nat) (weights sizes : list nat) : res (list nat) :=
  spread s c weights sizes.

(** wss.h:133-148. *)
Fixpoint wss_local_query (n c : nat) (d : list (wrapped R)) : res (list (wrapped R)) :=
  match n with
  | O => Ok []
  | S n' =>
      match nth_error d (wsample (weights_of d) c) with
      | None => Fail FNull
      | Some w => do r <- wss_local_query n' (S c) d; Ok (if is_del w then r else w :: r)
      end
  end.

(** wss.h:150-165 with the cutoff of line 69; for an empty view the cutoff wraps to the
    largest size, and the sample is out of the view.  The rejection test scales a number
    between 0 and 1 by the largest weight. *)
Fixpoint wss_buffer_query (n c : nat) (ws : list (wrapped R)) : res (list (wrapped R)) :=
  match n with
  | O => Ok []
  | S n' =>
      match ws with
      | [] => Fail FOob
      | _ =>
          do x <- draw c (length ws - 1);
          do w <- nth_res x ws;
          do r <- wss_buffer_query n' (S (S c)) ws;
          let test := (rng (S c) mod grain) * max_weight ws in
          Ok (if (test <=? rweight (wrec w) * grain) && negb (is_del w) then w :: r else r)
      end
  end.

Fixpoint wss_shards (sizes : list nat) (c : nat) (ds : list (list (wrapped R))) : res (list (wrapped R)) :=
  match sizes, ds with
  | n :: sizes', d :: ds' =>
      do a <- wss_local_query n c d;
      do b <- wss_shards sizes' (c + n) ds';
      Ok (a ++ b)
  | _, _ => Ok []
  end.

Definition wss_round (sizes : list nat) (c : nat) (ws : list (wrapped R)) (ds : list (list (wrapped R)))
  : res (list (wrapped R)) :=
  match sizes with
  | [] => Fail FOob
  | n :: sizes' =>
      do a <- wss_buffer_query n c ws;
      do b <- wss_shards sizes' (c + 2 * n) ds;
      Ok (a ++ b)
  end.

(** DynamicExtension.h:632-665 with wss.h:177-187. *)
Fixpoint wss_loop (fuel s c : nat) (sizes weights : list nat) (ws : list (wrapped R))
    (ds : list (list (wrapped R))) (out : list (wrapped R)) : res (list (wrapped R)) :=
  match fuel with
  | O => Fail FFuel
  | S fuel' =>
      do r <- wss_round sizes c ws ds;
      let out' := out ++ r in
      let c' := c + 2 * sum_list sizes in
      if length out' <? s then
        let s' := s - length out' in
        do sizes' <- wss_distribute s' c' weights sizes;
        wss_loop fuel' s' (c' + s') sizes' weights ws ds out'
      else Ok out'
  end.

(** A query for [s] samples; the weights are those of the view and the shards. *)
Definition wss_query (fuel s : nat) (ws : list (wrapped R)) (ds : list (list (wrapped R))) : res (list R) :=
  let weights := sum_list (weights_of ws) :: map (fun d => sum_list (weights_of d)) ds in
  do sizes <- wss_distribute s 0 weights (repeat 0 (length weights));
  do out <- wss_loop fuel s s sizes weights ws ds [];
  Ok (map wrec out).

(** ** The queries of the index *)

(** The arrays of the shards of a structure, in the order in which they are queried. *)
Definition query_data (st : structure R) : list (list (wrapped R)) := map s_data (query_shards st).

(** DynamicExtension.h:609-680 for irs::Query. *)
Definition range_sample (fuel : nat) (rej : bool) (s : nat) (l u : Z) (e : ext R) : res (ext R * list R) :=
  with_epoch e (fun st d v =>
    do ws <- v_records d v;
    irs_query fuel rej s l u ws (query_data st)).

(** DynamicExtension.h:609-680 for wss::Query. *)
Definition weighted_sample (fuel s : nat) (e : ext R) : res (ext R * list R) :=
  with_epoch e (fun st d v =>
    do ws <- v_records d v;
    wss_query fuel s ws (query_data st)).

End Sample.
