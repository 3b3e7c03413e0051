(** The free space that a buffer reports (C75). *)
From Coq Require Import List Arith ZArith NArith Lia Bool.
From Verif Require Import Base RecordModel BufferModel BufMoreModel BufSpec SpaceSpec SpaceProofs.
Import ListNotations.

(** C75: when the capacity is at least twice the high watermark, get_available_capacity()
    is the capacity less the records from the oldest position in use: the head, or that of
    a view still held.  No view starts before it.
    Partial: false for smaller capacities, which the constructor accepts (see below). *)
Theorem C75_space_partial {R : Type} {RO : RecOps R} :
  forall lwm hwm cap (b0 : buffer R) ops b rs,
  0 < hwm -> buf_create lwm hwm cap = Ok b0 -> brun b0 ops = Ok (b, rs) ->
  2 * hwm <= b_cap b0 -> polite 0 [] ops rs ->
  let held := views [] ops in
  let h := head_after 0 ops rs in
  let n := length (appended ops rs) in
  exists o, (o = h \/ In o held) /\ o <= h /\ (forall x, In x held -> o <= x) /\
  n - o <= b_cap b0 /\ buf_available b = b_cap b0 - (n - o).
Proof. exact space. Qed.
Print Assumptions C75_space_partial.

(** C75: the same number results from the 64-bit subtractions of the code. *)
Theorem C75_word_partial {R : Type} {RO : RecOps R} :
  forall lwm hwm cap (b0 : buffer R) ops b rs,
  0 < hwm -> buf_create lwm hwm cap = Ok b0 -> brun b0 ops = Ok (b, rs) ->
  2 * hwm <= b_cap b0 -> polite 0 [] ops rs -> (N.of_nat (b_cap b0) < 2 ^ 64)%N ->
  buf_available64 b = N.of_nat (buf_available b).
Proof. exact space64. Qed.
Print Assumptions C75_word_partial.

(** C75: the reported space is really free: that many further appends change no slot of the
    current contents nor of any view still held. *)
Theorem C75_free_partial {R : Type} {RO : RecOps R} :
  forall lwm hwm cap (b0 : buffer R) ops b rs l b' rs' h y,
  0 < hwm -> buf_create lwm hwm cap = Ok b0 -> brun b0 ops = Ok (b, rs) ->
  2 * hwm <= b_cap b0 -> polite 0 [] ops rs ->
  length l <= buf_available b -> brun b (appends l) = Ok (b', rs') ->
  h = head_after 0 ops rs \/ In h (views [] ops) -> h <= y < b_tail b ->
  nth_error (b_data b') (y mod b_cap b) = nth_error (b_data b) (y mod b_cap b).
Proof. exact space_safe. Qed.
Print Assumptions C75_free_partial.

(** Two views of head 0, one released; an advance; a view of the new head; more appends. *)
Definition px_calls : list (bop kv) :=
  [BApp (KV 1 1) false; BApp (KV 2 2) true; BAcq 0; BAcq 0; BApp (KV 3 3) false;
   BAdv 2; BAcq 2; BRel 0; BApp (KV 4 4) false].

Example C75_case :
  match buf_create 1 3 7 with
  | Ok b0 =>
      match brun b0 px_calls with
      | Ok (b, rs) =>
          polite 0 [] px_calls rs /\ views [] px_calls = [2; 0] /\ head_after 0 px_calls rs = 2 /\
          length (appended px_calls rs) = 4 /\ buf_available b = 3 /\ buf_available64 b = 3%N /\
          match brun b [BRel 0] with Ok (b', _) => buf_available b' = 5 | Fail _ => False end
      | Fail _ => False
      end
  | Fail _ => False
  end.
Proof. vm_compute. intuition. Qed.

(** C75 fails for a capacity below twice the high watermark: with capacity 4 and watermark 3
    a view of three records is held across an advance, three more records are accepted, and
    the reported space is 2^64 - 2. *)
Theorem C75_space_refuted : exists (ops : list (bop kv)) b0 b rs,
  buf_create 1 3 4 = Ok b0 /\ brun b0 ops = Ok (b, rs) /\ polite 0 [] ops rs /\
  views [] ops = [0] /\ length (appended ops rs) = 6 /\
  buf_available64 b = (2 ^ 64 - 2)%N.
Proof.
  exists [BApp (KV 1 1) false; BApp (KV 2 2) false; BApp (KV 3 3) false; BAcq 0; BAdv 3;
          BApp (KV 4 4) false; BApp (KV 5 5) false; BApp (KV 6 6) false].
  do 3 eexists. split; [vm_compute; reflexivity|]. split; [vm_compute; reflexivity|].
  vm_compute. intuition.
Qed.
Print Assumptions C75_space_refuted.
