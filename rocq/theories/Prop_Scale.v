(** Clients that insert from several threads until they are accepted (C88). *)
From Coq Require Import List Arith ZArith NArith Lia Bool Permutation.
From Verif Require Import Base RecordModel RecordProofs BufferModel BufConcModel SysModel SysTrace ScaleModel ScaleProofs.
Import ListNotations.

(** C88: in every execution of clients that repeat an insert until it returns 1, the
    accepted inserts and those still to be made are together those of the clients'
    programs, each as often as it occurs in them: none is lost and none is made twice,
    whatever else the threads call and however the steps are ordered. *)
Theorem C88_once {R : Type} {RO : RecOps R} : forall lwm hwm cap ok (progs : list (list (R * bool))) k,
  kreach lwm hwm cap ok (k_init hwm cap progs) k ->
  Permutation (map snd (cs_done (y_buf (k_sys k))) ++ concat (k_left k)) (concat progs).
Proof. exact clients_once. Qed.
Print Assumptions C88_once.

(** C88: when the clients are through, each record is in the current epoch's shards or in
    its slot of the buffer, if no append was half done when a reconstruction read the end
    of the buffer.  Missing: other executions (false, see C21_lost_record_refuted). *)
Theorem C88_stored_partial {R : Type} {RO : RecOps R} : forall lwm hwm cap (progs : list (list (R * bool))) k e l r ts,
  0 < hwm -> 2 * hwm <= cap ->
  kreach lwm hwm cap calm (k_init hwm cap progs) k -> Forall (eq []) (k_left k) -> y_stop (k_sys k) = None ->
  c_ep (y_cur (k_sys k)) = Some e -> In l progs -> In (r, ts) l ->
  exists x y, y_heap (k_sys k) e = Some x /\ In (y, (r, ts)) (cs_done (y_buf (k_sys k))) /\
    if y <? hidx (cb_head (cs_buf (y_buf (k_sys k)))) then nth_error (e_recs x) y = Some (append_rec r ts (y mod cap))
    else nth_error (cb_data (cs_buf (y_buf (k_sys k)))) (y mod cap) = Some (append_rec r ts (y mod cap)).
Proof. exact clients_stored. Qed.
Print Assumptions C88_stored_partial.

(** C88: the benchmark inserts each record once if the records after the warm-up can be
    divided among the threads.  Missing: other numbers (false, see C88_rest_refuted). *)
Theorem C88_benchmark_partial {R : Type} {RO : RecOps R} : forall lwm hwm cap ok (data : list R) n w t others k,
  0 < t -> n = length data -> w <= n -> (n - w) mod t = 0 ->
  kreach lwm hwm cap ok (k_init hwm cap (scaling data n w t others)) k -> Forall (eq []) (k_left k) ->
  Permutation (map snd (cs_done (y_buf (k_sys k)))) (map (fun r => (r, false)) data).
Proof. exact scaling_all. Qed.
Print Assumptions C88_benchmark_partial.

(** ** A case: threads with refused inserts, and a flush *)

Definition ks (t n : nat) : list (kact kv) := repeat (KDo (UStep t)) n.
(** Thread 0 inserts two records; its third insert starts a reconstruction and is refused. *)
Definition sc_a : list (kact kv) := KInsert 0 :: ks 0 9 ++ KInsert 0 :: ks 0 9 ++ KInsert 0 :: ks 0 7 ++ KDo (Alloc 0 1) :: ks 0 10.
(** Thread 2 flushes; then thread 0 tries again while thread 1 inserts, which is refused and
    tries again, too. *)
Definition sc_b : list (kact kv) :=
  KDo (UCall 2 URecon) :: ks 2 30 ++ KInsert 0 :: KInsert 1 :: concat (repeat (ks 0 1 ++ ks 1 1) 8) ++ ks 0 1 ++
  KInsert 1 :: ks 1 9.
Definition sc_progs : list (list (kv * bool)) := [[(KV 1 0, false); (KV 2 0, false); (KV 3 0, true)]; [(KV 4 0, false)]; []]%Z.
Definition sc_play (l : list (kact kv)) : option (clients kv) := kchecked 2 2 4 calmb (k_init 2 4 sc_progs) l.

Definition seen (k : clients kv) : list (list (kv * bool)) * list (kv * bool) * option stop * option nat :=
  (k_left k, map snd (cs_done (y_buf (k_sys k))), y_stop (k_sys k), c_ep (y_cur (k_sys k))).

Example C88_case : exists k k', sc_play (sc_a ++ firstn 47 sc_b) = Some k /\ sc_play (sc_a ++ sc_b) = Some k' /\
  kreach 2 2 4 calm (k_init 2 4 sc_progs) k /\ kreach 2 2 4 calm (k_init 2 4 sc_progs) k' /\
  seen k = ([[(KV 3 0, true)]; [(KV 4 0, false)]; []], [(KV 2 0, false); (KV 1 0, false)], None, Some 1%nat)%Z /\
  seen k' = ([[]; []; []], [(KV 4 0, false); (KV 3 0, true); (KV 2 0, false); (KV 1 0, false)], None, Some 1%nat)%Z.
Proof.
  destruct (kchecked_seen 2 2 4 calmb calm calmb_ok (k_init 2 4 sc_progs) seen (sc_a ++ firstn 47 sc_b)
    ([[(KV 3 0, true)]; [(KV 4 0, false)]; []], [(KV 2 0, false); (KV 1 0, false)], None, Some 1%nat)%Z) as (k & E & P & V);
    [vm_compute; reflexivity|].
  destruct (kchecked_seen 2 2 4 calmb calm calmb_ok (k_init 2 4 sc_progs) seen (sc_a ++ sc_b)
    ([[]; []; []], [(KV 4 0, false); (KV 3 0, true); (KV 2 0, false); (KV 1 0, false)], None, Some 1%nat)%Z) as (k' & E' & P' & V');
    [vm_compute; reflexivity|].
  exact (ex_intro _ k (ex_intro _ k' (conj E (conj E' (conj P (conj P' (conj V V'))))))).
Qed.

(** Five records, one for the warm-up and two for each of two threads. *)
Definition five : list kv := [KV 1 0; KV 2 0; KV 3 0; KV 4 0; KV 5 0]%Z.
Definition all_of (t m : nat) : list (kact kv) := concat (repeat (KInsert t :: ks t 9) m).
Definition any_of (s : sys kv) (x : sact kv) : bool := true.
Lemma any_ok : forall s x, any_of s x = true -> anyact s x.
Proof. intros. exact Logic.I. Qed.

Example C88_benchmark_case : exists k, kreach 9 9 20 anyact (k_init 9 20 (scaling five 5 1 2 1)) k /\
  seen k = ([[]; []; []; []], map (fun i => (KV i 0, false)) [5; 3; 2; 4; 1], None, Some 0%nat)%Z.
Proof.
  destruct (kchecked_seen 9 9 20 any_of anyact any_ok (k_init 9 20 (scaling five 5 1 2 1)) seen
    (all_of 0 1 ++ all_of 2 1 ++ all_of 1 2 ++ all_of 2 1)
    ([[]; []; []; []], map (fun i => (KV i 0, false)) [5; 3; 2; 4; 1], None, Some 0%nat)%Z) as (k & _ & P & V);
    [vm_compute; reflexivity|].
  exact (ex_intro _ k (conj P V)).
Qed.

(** ** What fails *)

(** C88 fails if they cannot be divided: the last records are never inserted. *)
Theorem C88_rest_refuted : exists (data : list kv) n w t others k r,
  0 < t /\ n = length data /\ w <= n /\ kreach 9 9 20 anyact (k_init 9 20 (scaling data n w t others)) k /\
  Forall (eq []) (k_left k) /\ In r data /\ ~ In (r, false) (map snd (cs_done (y_buf (k_sys k)))).
Proof.
  destruct (kchecked_seen 9 9 20 any_of anyact any_ok (k_init 9 20 (scaling (firstn 4 five) 4 1 2 1)) seen
    (all_of 0 1 ++ all_of 2 1 ++ all_of 1 1)
    ([[]; []; []; []], map (fun i => (KV i 0, false)) [2; 3; 1], None, Some 0%nat)%Z) as (k & _ & P & V);
    [vm_compute; reflexivity|].
  exists (firstn 4 five), 4, 1, 2, 1, k, (KV 4 0). split; [lia|]. split; [reflexivity|]. split; [lia|].
  split; [exact P|]. clear P. unfold seen in V. inversion V as [[V1 V2 V3 V4]]. rewrite V1.
  split; [repeat constructor|]. split; [cbn; auto 10|].
  intros H. rewrite V2 in H. cbn in H. repeat destruct H as [H|H]; try discriminate; auto.
Qed.
Print Assumptions C88_rest_refuted.
