(** Range sampling and weighted sampling (C33, C34, C47, C48). *)
From Coq Require Import List Arith ZArith NArith Lia Bool.
From Verif Require Import Base RecordModel RecordProofs Spec ISAMModel SampleModel SampleSpec SampleProofs.
Import ListNotations.

(** C33: every sample is stored and in range, there are at most as many as requested,
    and the only failure is an unbounded number of rounds; for every random stream and
    number of rounds, with or without rejection, over ISAM trees. *)
Theorem C33_sound {R : Type} {RO : RecOps R} {RL : RecLaws R} {KO : KeyOps R} {KL : KeyLaws R} :
  forall F L rng alias (rej : bool) s l u (ws : list (wrapped R)) ds fuel, 2 <= F -> 1 <= L ->
  alias_contract alias -> Forall (fun d => d <> [] /\ sorted d) ds -> (l <= u)%Z ->
  match irs_query rng alias (isam_find F L) (isam_find_upper F L) fuel rej s l u ws ds with
  | Ok out => length out <= s /\ forall r, In r out -> stored_in_range l u ws ds r
  | Fail f => f = FFuel
  end.
Proof.
  exact (fun F L rng alias rej s l u ws ds fuel HF HL AO DO LU =>
    irs_sound rng alias AO _ _ (isam_bounds_exact F L HF HL) l u LU ws ds DO rej fuel s).
Qed.
Print Assumptions C33_sound.

(** C33: without rejection (or with an empty buffer) and with a record in range, one
    round returns the requested number.  Missing: a buffer sampled by rejection (false,
    see C33_fewer_refuted) and ranges without records (false, see C33_empty_range). *)
Theorem C33_exact_partial {R : Type} {RO : RecOps R} {RL : RecLaws R} {KO : KeyOps R} {KL : KeyLaws R} :
  forall F L rng alias (rej : bool) s l u (ws : list (wrapped R)) ds fuel, 2 <= F -> 1 <= L ->
  alias_contract alias -> Forall (fun d => d <> [] /\ sorted d) ds -> 0 < fuel ->
  rej = false \/ ws = [] -> (exists r, stored_in_range l u ws ds r) ->
  exists out, irs_query rng alias (isam_find F L) (isam_find_upper F L) fuel rej s l u ws ds = Ok out /\
    length out = s.
Proof.
  exact (fun F L rng alias rej s l u ws ds fuel HF HL AO DO =>
    irs_exact rng alias AO _ _ (isam_bounds_exact F L HF HL) l u ws ds DO rej fuel s).
Qed.
Print Assumptions C33_exact_partial.
Example C33_example :
  let ws := map (fun x => W 0%N (KV x 0%Z)) [50; 12; 9]%Z in
  let ds := [map (fun x => W 0%N (KV x 0%Z)) [1; 5; 7; 8]%Z; map (fun x => W 0%N (KV x 0%Z)) [20; 30]%Z] in
  irs_query (fun c => c * 5 + 1) first_pos (isam_find 2 1) (isam_find_upper 2 1) 1 false 3 5%Z 10%Z ws ds
    = Ok [KV 9 0; KV 9 0; KV 9 0]%Z /\
  irs_query (fun c => c * 5 + 1) first_pos (isam_find 2 1) (isam_find_upper 2 1) 1 false 4 5%Z 8%Z ws ds
    = Ok [KV 5 0; KV 8 0; KV 7 0; KV 5 0]%Z.
Proof. vm_compute. split; reflexivity. Qed.

(** C33 fails: with no record in range the query never ends, whatever is stored. *)
Theorem C33_empty_range {R : Type} {RO : RecOps R} {RL : RecLaws R} {KO : KeyOps R} {KL : KeyLaws R} :
  forall F L rng alias (rej : bool) s l u (ws : list (wrapped R)) ds fuel, 2 <= F -> 1 <= L ->
  alias_contract alias -> Forall (fun d => d <> [] /\ sorted d) ds -> (l <= u)%Z -> 0 < s ->
  (forall r, ~ stored_in_range l u ws ds r) ->
  irs_query rng alias (isam_find F L) (isam_find_upper F L) fuel rej s l u ws ds = Fail FFuel.
Proof.
  exact (fun F L rng alias rej s l u ws ds fuel HF HL AO DO LU =>
    irs_empty rng alias AO _ _ (isam_bounds_exact F L HF HL) l u LU ws ds DO rej fuel s).
Qed.
Print Assumptions C33_empty_range.
Theorem C33_empty_refuted : exists (ws : list (wrapped kv)) ds s l u, (l <= u)%Z /\ ws <> [] /\ 0 < s /\
  Forall (fun d => d <> [] /\ sorted d) ds /\
  forall rng alias fuel, alias_contract alias ->
    irs_query rng alias (isam_find 2 1) (isam_find_upper 2 1) fuel true s l u ws ds = Fail FFuel.
Proof. exact irs_empty_witness. Qed.
Print Assumptions C33_empty_refuted.

(** C33 fails: a query that needs a second round may return fewer samples than
    requested, although records are in range. *)
Theorem C33_fewer_refuted : exists rng (ws : list (wrapped kv)) s l u out,
  (exists r, stored_in_range l u ws [] r) /\
  irs_query rng first_pos (isam_find 2 1) (isam_find_upper 2 1) 10 true s l u ws [] = Ok out /\ length out < s.
Proof.
  exists (fun c => if (c =? 7) || (c =? 9) then 1 else 0), (map (fun x => W 0%N (KV x 0%Z)) [5; 50]%Z).
  exists 4, 0%Z, 10%Z. eexists. split; [|split; [vm_compute; reflexivity|simpl; lia]].
  exists (KV 5 0)%Z. split; [simpl; lia|]. exists (W 0%N (KV 5 0)%Z). split; [now left|reflexivity].
Qed.
Print Assumptions C33_fewer_refuted.

(** C34: every buffered record but the last, of positive weight and not tagged, is
    returned for some random numbers.  Missing: the last record (false, see below). *)
Theorem C34_covers_partial {R : Type} {RO : RecOps R} :
  forall (rweight : R -> nat) grain ws ds i w,
  nth_error ws i = Some w -> i + 1 < length ws -> 0 < rweight (wrec w) -> is_del w = false ->
  exists rng alias, alias_contract alias /\
    forall wsample, wss_query rng alias rweight grain wsample 1 1 ws ds = Ok [wrec w].
Proof. exact wss_covers. Qed.
Print Assumptions C34_covers_partial.
Example C34_example :
  wss_query (fun c => if c =? 1 then 1 else 0) first_pos (fun r => Z.to_nat (k_val r)) 10 first_pos 1 1
    [W 0%N (KV 1 4); W 0%N (KV 2 1); W 0%N (KV 3 9)]%Z [[W 0%N (KV 7 7)]]%Z = Ok [KV 2 1]%Z.
Proof. reflexivity. Qed.

(** C34: every sample is an untagged record of a shard, or of the buffer without its
    last record. *)
Theorem C34_sound {R : Type} {RO : RecOps R} :
  forall rng alias wsample (rweight : R -> nat) grain fuel s ws ds out,
  wss_query rng alias rweight grain wsample fuel s ws ds = Ok out ->
  forall r, In r out -> exists w, In w (removelast ws ++ concat ds) /\ is_del w = false /\ wrec w = r.
Proof. exact wss_in. Qed.
Print Assumptions C34_sound.

(** C34 fails: the last buffered record is never returned. *)
Theorem C34_last_refuted : exists (rweight : kv -> nat) ws r, In (W 0%N r) ws /\ 0 < rweight r /\
  forall grain rng alias wsample fuel s out,
    wss_query rng alias rweight grain wsample fuel s ws [] = Ok out -> ~ In r out.
Proof. exact wss_last_witness. Qed.
Print Assumptions C34_last_refuted.

(** C34 fails: with one buffered record the sampling aborts. *)
Theorem C34_single {R : Type} {RO : RecOps R} :
  forall rng alias wsample (rweight : R -> nat) grain, alias_contract alias -> forall fuel s w,
  0 < fuel -> 0 < s -> 0 < rweight (wrec w) ->
  wss_query rng alias rweight grain wsample fuel s [w] [] = Fail FAssert.
Proof. exact wss_single. Qed.
Print Assumptions C34_single.
Example C34_single_example :
  wss_query (fun c => c) first_pos (fun r => Z.to_nat (k_val r)) 10 first_pos 5 3 [W 0%N (KV 1 4)]%Z [] = Fail FAssert.
Proof. reflexivity. Qed.

(** C47 fails: a tagged record of a shard, and a record deleted by a tombstone, are
    returned by range sampling; and so is the tombstone. *)
Theorem C47_deleted_refuted :
  (exists (w : wrapped kv) l u, is_del w = true /\
     irs_query (fun c => c) first_pos (isam_find 2 1) (isam_find_upper 2 1) 1 true 1 l u [] [[w]] = Ok [wrec w]) /\
  exists (r : kv) l u,
     irs_query (fun c => c) first_pos (isam_find 2 1) (isam_find_upper 2 1) 1 true 1 l u
       [W 1%N r] [[W 0%N r]] = Ok [r].
Proof.
  split.
  - exists (set_delete (W 0%N (KV 5 0)%Z)), 0%Z, 10%Z. vm_compute. split; reflexivity.
  - exists (KV 5 0)%Z, 0%Z, 10%Z. vm_compute. reflexivity.
Qed.
Print Assumptions C47_deleted_refuted.

(** C48: from shards alone, without tagged records, weighted sampling returns the
    requested number.  Missing: a non-empty buffer and tagged records (false, see below). *)
Theorem C48_exact_partial {R : Type} {RO : RecOps R} :
  forall rng alias wsample (rweight : R -> nat) grain, alias_contract alias -> alias_contract wsample ->
  forall fuel s ds, 0 < fuel -> (forall w, In w (concat ds) -> is_del w = false) ->
  (exists w, In w (concat ds) /\ 0 < rweight (wrec w)) ->
  exists out, wss_query rng alias rweight grain wsample fuel s [] ds = Ok out /\ length out = s.
Proof. exact wss_exact. Qed.
Print Assumptions C48_exact_partial.
Example C48_example :
  wss_query (fun c => c) first_pos (fun r => Z.to_nat (k_val r)) 10 first_pos 1 2 []
    [[W 0%N (KV 1 0); W 0%N (KV 2 0)]; [W 0%N (KV 3 0); W 0%N (KV 4 3)]]%Z = Ok [KV 4 3; KV 4 3]%Z.
Proof. reflexivity. Qed.

(** C48 fails: a second round may return more than requested. *)
Theorem C48_more_refuted : exists rng (ws : list (wrapped kv)) s out,
  wss_query rng first_pos (fun r => Z.to_nat (k_val r)) 10 first_pos 10 s ws [] = Ok out /\ s < length out.
Proof.
  exists (fun c => if c =? 3 then 3 else 0), [W 0%N (KV 1 1); W 0%N (KV 2 4); W 0%N (KV 3 1)]%Z, 2. eexists.
  split; [vm_compute; reflexivity|simpl; lia].
Qed.
Print Assumptions C48_more_refuted.

(** C48 fails: if every record is tagged the sampling never ends. *)
Theorem C48_forever_refuted : exists (w : wrapped kv) (rweight : kv -> nat), forall grain rng fuel,
  wss_query rng first_pos rweight grain first_pos fuel 1 [] [[w]] = Fail FFuel.
Proof.
  exists (set_delete (W 0%N (KV 5 1)%Z)), (fun _ => 1).
  exact (fun grain rng => wss_forever (fun _ => 1) grain rng (set_delete (W 0%N (KV 5 1)%Z)) eq_refl (le_n 1)).
Qed.
Print Assumptions C48_forever_refuted.
