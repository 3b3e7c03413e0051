(** What queries return in every execution, also when appends are in progress while the
    buffer is flushed (C69, C70), and which records that can harm (C71).
    [ssched lwm hwm cap s l = Some s'] says that the list [l] of calls and steps leads
    from [s] to [s']. *)
From Coq Require Import List Arith ZArith NArith Lia Bool Permutation.
From Verif Require Import Base RecordModel RecordProofs BufferModel MergeModel MergeProofs StructModel ExtModel
  QueryModel Spec QueryProofs FlushModel FlushSpec FlushProofs BufConcModel SysModel SysInv SysStill SysBatch SysSpec SysTrace
  SysQuery SysOrigin SysWild Prop_Sys.
Import ListNotations.

(** An insert of [ra] is in progress while the buffer is flushed; it returns 1, and a
    query follows. *)
Definition overlap : list (sact kv) :=
  UCall 0 (UInsert ra false) :: st 0 6 ++ trig 1 1 rb ++ rcn 2 ++ st 0 3 ++ UCall 2 (UJob KQuery) :: st 2 12.
(** All slots but the first. *)
Definition but_first (i : nat) : bool := negb (i =? 0).
Definition overlap_batch : batch kv := ([W 0 rzero; W 12 rb; W 0 rzero; W 0 rzero], View 4 0 2 0).
Definition overlap_buf : batch kv := ([W 4 ra; W 12 rb; W 0 rzero; W 0 rzero], View 4 2 2 0).

Example overlap_case :
  match ssched 1 2 4 init overlap with
  | Some s => y_ans s = [AList [(0, (ra, false)); (1, (rb, false))] [[W 0 rzero; W 12 rb]] []] /\
              y_heap s 1 = Some (Ep [[W 0 rzero; W 12 rb]] 2) /\ cb_tail (cs_buf (y_buf s)) = 2 /\ c_ep (y_cur s) = Some 1
  | None => False
  end.
Proof. vm_compute. repeat split. Qed.

(** C69: a record that a query or a static structure has read was passed to insert or
    erase, with its tombstone bit, by some call of the execution; or it is the record
    that the buffer's array is filled with at first.  Missing: that the latter is never
    read, which is false (C69_initial_record_refuted). *)
Theorem C69_origin_partial {R : Type} {RO : RecOps R} :
  forall lwm hwm cap l n (s : sys R) seen runs buf w, ssched lwm hwm cap (sys_init hwm cap n) l = Some s ->
  In (AList seen runs buf) (y_ans s) -> In w (concat runs ++ buf) ->
  (exists t, In (UCall t (UInsert (wrec w) (is_ts w))) l) \/ w = W 0 rzero.
Proof. exact answers_origin. Qed.
Print Assumptions C69_origin_partial.

(** The same of every record in the shards of an epoch. *)
Theorem C69_shards_partial {R : Type} {RO : RecOps R} :
  forall lwm hwm cap l n (s : sys R) e x w, ssched lwm hwm cap (sys_init hwm cap n) l = Some s ->
  y_heap s e = Some x -> In w (e_recs x) ->
  (exists t, In (UCall t (UInsert (wrec w) (is_ts w))) l) \/ w = W 0 rzero.
Proof. exact epochs_origin. Qed.
Print Assumptions C69_shards_partial.

(** In every execution without erases the reconstructions succeed, and every record
    that a range query returns is in the range and was inserted, or is the initial one;
    and there are at most as many as positions were given out. *)
Theorem C69_range_query_partial {R : Type} {RO : RecOps R} {RL : RecLaws R} {KO : KeyOps R} {KL : KeyLaws R}
  (qlt : qorder R) {QO : QOrder qlt} (lbf : list (wrapped R) -> Z -> res nat) :
  forall C cap l n (s : sys R) seen runs buf bs, valid_cfg C -> lb_sound lbf -> 2 * c_hwm C <= cap ->
  ssched (c_lwm C) (c_hwm C) cap (sys_init (c_hwm C) cap n) l = Some s ->
  (forall t r ts, In (UCall t (UInsert r ts)) l -> ts = false) ->
  In (AList seen runs buf) (y_ans s) -> Forall2 shows bs runs ->
  exists st, flush_all qlt C st_empty bs = Ok st /\
    forall d v lo hi, shows (d, v) buf ->
      exists out, rq_on qlt lbf lo hi st d v = Ok out /\ length out <= cb_tail (cs_buf (y_buf s)) /\
        forall r, In r out -> key_in lo hi r = true /\ ((exists t, In (UCall t (UInsert r false)) l) \/ r = rzero).
Proof.
  exact (fun C cap l n s seen runs buf bs V LB CAP => wild_range_query qlt C V lbf LB cap CAP l n s seen runs buf bs).
Qed.
Print Assumptions C69_range_query_partial.

(** The hypotheses are met: [overlap_case], and these. *)
Definition overlap_cfg (l : layout) : cfg := Cfg l TOMBSTONE 1 2 2.
Example C69_case : forall l, valid_cfg (overlap_cfg l) /\ 2 * c_hwm (overlap_cfg l) <= 4 /\
  Forall2 shows [overlap_batch] [[W 0 rzero; W 12 rb]] /\ shows overlap_buf [] /\
  match flush_all by_version (overlap_cfg l) st_empty [overlap_batch] with
  | Ok s => rq_on by_version lb_isam 0 5 s (fst overlap_buf) (snd overlap_buf) = Ok [rzero; rb] /\
            rq_on by_version lb_isam 1 5 s (fst overlap_buf) (snd overlap_buf) = Ok [rb]
  | Fail _ => False
  end.
Proof.
  intros l. split; [unfold valid_cfg; simpl; repeat split; lia || auto|]. split; [cbn; lia|]. split; [|split].
  - constructor; [|constructor]. repeat split; try (vm_compute; lia). intros i I. cbn in I.
    do 2 (destruct i; [reflexivity|]). lia.
  - repeat split; try (vm_compute; lia).
  - destruct l; vm_compute; split; reflexivity.
Qed.

(** The initial record is read, and returned by a range query, though nobody inserted it. *)
Theorem C69_initial_record_refuted :
  exists (l : list (sact kv)) s seen runs buf, ssched 1 2 4 init l = Some s /\ In (AList seen runs buf) (y_ans s) /\
  In (W 0 rzero) (concat runs ++ buf) /\
  (forall t ts, ~ In (UCall t (UInsert rzero ts)) l) /\
  exists bs d v st, Forall2 shows bs runs /\ shows (d, v) buf /\
    flush_all by_version (overlap_cfg TIERING) st_empty bs = Ok st /\
    rq_on by_version lb_isam 0 5 st d v = Ok [rzero; rb].
Proof.
  exists overlap. eexists. eexists. eexists. eexists. split; [vm_compute; reflexivity|]. split; [left; reflexivity|].
  split; [left; reflexivity|]. split.
  - intros t ts I. repeat (destruct I as [I|I]; [discriminate|]). exact I.
  - exists [overlap_batch], (fst overlap_buf), (snd overlap_buf). eexists.
    destruct (C69_case TIERING) as (_ & _ & S1 & S2 & _). split; [exact S1|]. split; [exact S2|].
    split; [vm_compute; reflexivity|]. vm_compute. reflexivity.
Qed.
Print Assumptions C69_initial_record_refuted.

(** C70: in every execution a query or a static structure reads at least as many
    records as inserts and erases had returned before its call, and at most as many as
    positions were given out; and the current epoch has as many records as the flushed
    positions. *)
Theorem C70_answer_size {R : Type} {RO : RecOps R} :
  forall lwm hwm cap ok n (s : sys R) seen runs buf, 0 < hwm -> 2 * hwm <= cap ->
  sreach lwm hwm cap ok (sys_init hwm cap n) s -> In (AList seen runs buf) (y_ans s) ->
  length seen <= length (concat runs ++ buf) <= cb_tail (cs_buf (y_buf s)).
Proof. exact sized. Qed.
Print Assumptions C70_answer_size.

Theorem C70_epoch_size {R : Type} {RO : RecOps R} :
  forall lwm hwm cap ok n (s : sys R) e, 0 < hwm -> 2 * hwm <= cap ->
  sreach lwm hwm cap ok (sys_init hwm cap n) s -> y_stop s = None -> c_ep (y_cur s) = Some e ->
  exists x, y_heap s e = Some x /\ length (e_recs x) = hidx (cb_head (cs_buf (y_buf s))).
Proof. exact epoch_size. Qed.
Print Assumptions C70_epoch_size.

Example C70_case :
  match ssched 1 2 4 init overlap with
  | Some s => match y_ans s with [AList seen runs buf] => length seen = 2 /\ length (concat runs ++ buf) = 2 | _ => False end /\
              hidx (cb_head (cs_buf (y_buf s))) = 2 /\ y_stop s = None
  | None => False
  end.
Proof. vm_compute. repeat split. Qed.

(** C71: let [f] be slots of the buffer into which no append is in progress whenever a
    reconstruction reads the end of the buffer.  Then a query or a static structure
    reads every record whose insert had returned before the call and whose position is
    in one of these slots, whatever happens in the others. *)
Theorem C71_snapshot {R : Type} {RO : RecOps R} :
  forall lwm hwm cap (f : nat -> bool) n (s : sys R) seen runs buf, 0 < hwm -> 2 * hwm <= cap ->
  sreach lwm hwm cap (calm_on cap (fun i => f i = true)) (sys_init hwm cap n) s -> In (AList seen runs buf) (y_ans s) ->
  exists extra, Permutation (concat runs ++ buf) (map (placed cap) (filter (fun x => f (fst x mod cap)) seen) ++ extra).
Proof. exact snapshot_on. Qed.
Print Assumptions C71_snapshot.

(** It is in the current epoch if it is before the buffer head, and in its slot
    otherwise. *)
Theorem C71_durable {R : Type} {RO : RecOps R} :
  forall lwm hwm cap (SL : nat -> Prop) n (s : sys R) e y r ts, 0 < hwm -> 2 * hwm <= cap ->
  sreach lwm hwm cap (calm_on cap SL) (sys_init hwm cap n) s -> y_stop s = None ->
  c_ep (y_cur s) = Some e -> In (y, (r, ts)) (cs_done (y_buf s)) -> SL (y mod cap) ->
  exists x, y_heap s e = Some x /\ e_head x = hidx (cb_head (cs_buf (y_buf s))) /\
    if y <? hidx (cb_head (cs_buf (y_buf s))) then nth_error (e_recs x) y = Some (append_rec r ts (y mod cap))
    else nth_error (cb_data (cs_buf (y_buf s))) (y mod cap) = Some (append_rec r ts (y mod cap)).
Proof. exact durable_on. Qed.
Print Assumptions C71_durable.

(** While a view is held, it stays in its slot of the view. *)
Theorem C71_view {R : Type} {RO : RecOps R} :
  forall lwm hwm cap (SL : nat -> Prop) n (s : sys R) h tl y r ts, 0 < hwm -> 2 * hwm <= cap ->
  sreach lwm hwm cap (calm_on cap SL) (sys_init hwm cap n) s ->
  In (Hold h tl) (cs_pcs (y_buf s)) -> h <= y < tl -> In (y, (r, ts)) (cs_done (y_buf s)) -> SL (y mod cap) ->
  nth_error (cb_data (cs_buf (y_buf s))) (y mod cap) = Some (append_rec r ts (y mod cap)).
Proof. exact view_intact_on. Qed.
Print Assumptions C71_view.

(** Without erases, a range query returns the records of these slots in its range, and
    possibly others.  Missing: executions with erases (C71_erases_partial). *)
Theorem C71_range_query_partial {R : Type} {RO : RecOps R} {RL : RecLaws R} {KO : KeyOps R} {KL : KeyLaws R}
  (qlt : qorder R) {QO : QOrder qlt} (lbf : list (wrapped R) -> Z -> res nat) :
  forall C cap (f : nat -> bool) n (s : sys R) seen runs buf bs, valid_cfg C -> lb_sound lbf -> 2 * c_hwm C <= cap ->
  sreach (c_lwm C) (c_hwm C) cap (fun s x => calm_on cap (fun i => f i = true) s x /\ plain_act s x)
    (sys_init (c_hwm C) cap n) s ->
  In (AList seen runs buf) (y_ans s) -> Forall2 shows bs runs ->
  exists st, flush_all qlt C st_empty bs = Ok st /\
    forall d v lo hi, shows (d, v) buf ->
      exists out extra, rq_on qlt lbf lo hi st d v = Ok out /\
        Permutation out (filter (key_in lo hi) (a_recs (filter (fun x => f (fst x mod cap)) seen)) ++ extra).
Proof.
  exact (fun C cap f n s seen runs buf bs V LB CAP => range_query_on qlt C V lbf LB cap CAP f n s seen runs buf bs).
Qed.
Print Assumptions C71_range_query_partial.

(** The hypotheses are met by an execution that is not calm: [rb] is kept. *)
Example C71_case :
  exists s, sreach 1 2 4 (fun s x => calm_on 4 (fun i => but_first i = true) s x /\ plain_act s x) init s /\
  y_ans s = [AList [(0, (ra, false)); (1, (rb, false))] [[W 0 rzero; W 12 rb]] []] /\
  filter (fun x => but_first (fst x mod 4)) [(0, (ra, false)); (1, (rb, false))] = [(1, (rb, false))] /\
  y_stop s = None /\ c_ep (y_cur s) = Some 1 /\ In (1, (rb, false)) (cs_done (y_buf s)).
Proof.
  eexists. split; [apply (schecked_on 1 2 4 but_first overlap); vm_compute; reflexivity|]. repeat split. right. left. reflexivity.
Qed.
(** A view held while an append is in progress. *)
Example C71_case_view :
  match schecked 1 2 4 (calm_onb 4 but_first) init
    (UCall 0 (UInsert ra false) :: st 0 6 ++ trig 1 1 rb ++ UCall 1 (UJob KQuery) :: st 1 9 ++ rcn 2) with
  | Some s => In (Hold 0 2) (cs_pcs (y_buf s)) /\ In (1, (rb, false)) (cs_done (y_buf s)) /\
              nth_error (cb_data (cs_buf (y_buf s))) 1 = Some (W 12 rb)
  | None => False
  end.
Proof. vm_compute. repeat split; auto. Qed.
(** [overlap] is not calm. *)
Example C71_case_not_calm :
  match schecked 1 2 4 calmb init overlap, schecked 1 2 4 (calm_onb 4 (fun _ => true)) init overlap with
  | None, None => True
  | _, _ => False
  end.
Proof. vm_compute. exact Logic.I. Qed.
