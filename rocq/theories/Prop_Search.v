(** Searches in Alias, PGM and TrieSpline shards (C28, C29, C45). *)
From Coq Require Import List Arith ZArith NArith Lia Bool Sorted.
From Verif Require Import Base RecordModel RecordProofs Spec SearchModel SearchProofs.
Import ListNotations.

(** C28: the lower bound of a key is the number of smaller keys, or the last index if
    all keys are smaller. *)
Theorem C28_alias_bound {R : Type} {RO : RecOps R} {RL : RecLaws R} {KO : KeyOps R} {KL : KeyLaws R} :
  forall (d : list (wrapped R)) k, d <> [] -> sorted d ->
  alias_lower_bound d k = Ok (Nat.min (countb (fun w => (rkey (wrec w) <? k)%Z) d) (length d - 1)).
Proof. exact (fun d k NE SD => alias_bound d SD k NE). Qed.
Print Assumptions C28_alias_bound.

(** C28: a lookup finds a copy if and only if there is one.  [bf] is the answer of the
    shard's filter, which holds the tombstones only: with [filter] set, the lookup
    looks at the records if that answer is yes. *)
Theorem C28_alias_lookup {R : Type} {RO : RecOps R} {RL : RecLaws R} {KO : KeyOps R} {KL : KeyLaws R} :
  forall (d : list (wrapped R)) bf r filter, d <> [] -> sorted d -> (filter = true -> bf = true) ->
  exists o, alias_point_lookup bf d r filter = Ok o /\ answers d r o.
Proof. exact (fun d bf r filter NE SD => alias_lookup d SD bf r filter NE). Qed.
Print Assumptions C28_alias_lookup.

(** C28: the range queries may use this lower bound. *)
Theorem C28_range_contract {R : Type} {RO : RecOps R} {RL : RecLaws R} {KO : KeyOps R} {KL : KeyLaws R} :
  lb_sound (alias_lower_bound (R := R)).
Proof. exact alias_sound. Qed.
Print Assumptions C28_range_contract.

(** C29: when the model brackets the key, PGM's bound is the number of smaller keys or
    one less; it is exact when the key is present or every key is smaller. *)
Theorem C29_pgm_bound {R : Type} {RO : RecOps R} {RL : RecLaws R} {KO : KeyOps R} {KL : KeyLaws R} :
  forall (d : list (wrapped R)) k b, sorted d -> brackets d b k ->
  let below := countb (fun w => (rkey (wrec w) <? k)%Z) d in
  exists i, pgm_lower_bound b d k = Ok i /\ i <= below /\ below <= i + 1 /\ (below = length d -> i = length d) /\
    (forall w, In w d -> rkey (wrec w) = k -> i = below).
Proof. exact (fun d k b SD => pgm_ok d SD k b). Qed.
Print Assumptions C29_pgm_bound.

(** C29: so the range queries, which roll forward, may use it. *)
Theorem C29_pgm_contract {R : Type} {RO : RecOps R} {RL : RecLaws R} {KO : KeyOps R} {KL : KeyLaws R} :
  forall search : list (wrapped R) -> Z -> nat * nat,
  (forall d k, d <> [] -> sorted d -> brackets d (search d k) k) ->
  lb_sound (fun d k => pgm_lower_bound (search d k) d k).
Proof. exact pgm_sound. Qed.
Print Assumptions C29_pgm_contract.

(** C29: the same for TrieSpline.  Missing: shards of exactly 50 records (false, see
    C29_fifty_refuted). *)
Theorem C29_trie_spline_partial {R : Type} {RO : RecOps R} {RL : RecLaws R} {KO : KeyOps R} {KL : KeyLaws R} :
  forall (d : list (wrapped R)) k ts, sorted d -> length d <> 50 ->
  (50 < length d -> exists b, ts = Some b /\ brackets d b k) ->
  let below := countb (fun w => (rkey (wrec w) <? k)%Z) d in
  exists i, ts_lower_bound ts d k = Ok i /\ i <= below /\ below <= i + 1 /\ (below = length d -> i = length d).
Proof. exact (fun d k ts SD => ts_ok d SD k ts). Qed.
Print Assumptions C29_trie_spline_partial.

(** C29 fails: with 50 records the spline is searched but was not built. *)
Theorem C29_fifty_refuted : exists d : list (wrapped kv), sorted d /\
  forall search k, ts_lower_bound (ts_model search d k) d k = Fail FOob.
Proof.
  exists (repeat (W 0 (KV 1 0)) 50). split.
  - apply sortedb_ok. reflexivity.
  - reflexivity.
Qed.
Print Assumptions C29_fifty_refuted.

(** C45: point lookup from PGM's bound, and from TrieSpline's.  Missing: every record is
    smaller than [r] but some have its key (false, see C45_past_the_end). *)
Theorem C45_learned_lookup_partial {R : Type} {RO : RecOps R} {RL : RecLaws R} {KO : KeyOps R} {KL : KeyLaws R} :
  forall (d : list (wrapped R)) r i lb, sorted d -> lb = Ok i ->
  let below := countb (fun w => (rkey (wrec w) <? rkey r)%Z) d in
  i <= below -> (below = length d -> i = length d) ->
  ~ (below < length d /\ countb (fun w => rlt (wrec w) r) d = length d) ->
  exists o, learned_point_lookup lb d r = Ok o /\ answers d r o.
Proof. exact (fun d r i lb SD => learned_lookup d SD r i lb). Qed.
Print Assumptions C45_learned_lookup_partial.

(** C45 fails: in the remaining case the lookup reads the slot after the last record. *)
Theorem C45_past_the_end {R : Type} {RO : RecOps R} {RL : RecLaws R} {KO : KeyOps R} {KL : KeyLaws R} :
  forall (d : list (wrapped R)) r i lb, sorted d -> lb = Ok i ->
  let below := countb (fun w => (rkey (wrec w) <? rkey r)%Z) d in
  i <= below -> below < length d -> countb (fun w => rlt (wrec w) r) d = length d ->
  learned_point_lookup lb d r = Fail FOob.
Proof. exact (fun d r i lb SD => learned_oob d SD r i lb). Qed.
Print Assumptions C45_past_the_end.

Theorem C45_past_the_end_refuted : exists (d : list (wrapped kv)) b r,
  sorted d /\ brackets d b (rkey r) /\ learned_point_lookup (pgm_lower_bound b d (rkey r)) d r = Fail FOob.
Proof.
  exists [W 0 (KV 1 0); W 0 (KV 2 5)], (0, 2), (KV 2 7). split; [repeat constructor|].
  split; [unfold brackets; cbn; lia|reflexivity].
Qed.
Print Assumptions C45_past_the_end_refuted.

(** ** Concrete cases *)

(** 300 records, so that a range over all of them is searched by bisection. *)
Definition se_data : list (wrapped kv) := map (fun i => W 0 (KV (Z.of_nat (i / 2) * 3) (Z.of_nat (i mod 2)))) (seq 0 300).

Example se_sorted : sorted se_data.
Proof. apply sortedb_ok. vm_compute. reflexivity. Qed.

Example se_bracket : brackets se_data (0, 300) 301 /\ brackets se_data (190, 210) 301.
Proof. unfold brackets. vm_compute. lia. Qed.

Example se_found :
  alias_lower_bound se_data 301 = Ok 202 /\ alias_lower_bound se_data 9999 = Ok 299 /\
  alias_point_lookup false se_data (KV 300 1) false = Ok (Some 201) /\
  alias_point_lookup false se_data (KV 301 1) false = Ok None /\
  pgm_lower_bound (0, 300) se_data 301 = Ok 201 /\ pgm_lower_bound (190, 210) se_data 300 = Ok 200 /\
  pgm_lower_bound (300, 300) se_data 9999 = Ok 300 /\
  ts_lower_bound (Some (190, 210)) se_data 301 = Ok 201 /\
  learned_point_lookup (pgm_lower_bound (190, 210) se_data 300) se_data (KV 300 1) = Ok (Some 201) /\
  ts_lower_bound None (firstn 10 se_data) 7 = Ok 6.
Proof. vm_compute. repeat split. Qed.

Example se_not_past : ~ (countb (fun w => (rkey (wrec w) <? 300)%Z) se_data < length se_data /\
  countb (fun w => rlt (wrec w) (KV 300 1)) se_data = length se_data).
Proof. vm_compute. intros [_ H]. discriminate. Qed.
