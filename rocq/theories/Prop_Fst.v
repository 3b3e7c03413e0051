(** The benchmark program for point lookups of strings, from its file to the answers (C92). *)
From Coq Require Import List Arith ZArith NArith Lia Bool.
From Verif Require Import Base RecordModel MergeModel StructModel ExtModel ExtProofs QueryModel Spec KindModel KindSpec KindProofs
  DriveModel DriveSpec FileModel FileSpec ProgModel FstModel FstProofs Prop_Kind Prop_Prog.
Import ListNotations.

(** C92: if no erase comes up, the program inserts a record for each of the first [n]
    lines of the file, which differ, and each query, for a line chosen at random, is
    answered with exactly the record of that line, by the index and by the static
    structure.  No part of the program fails if there are lines and queries; without queries
    it divides by 0, and without lines it has none to choose from.  [addr] gives the
    addresses that the lines are stored at, [search] is the lookup of the trie.
    Missing: runs with erases (false, see C92_erased_refuted) and equal lines (false, see
    C92_repeated_refuted). *)
Theorem C92_lookups_partial : forall (qlt : qorder crec) (QO : QOrder qlt) literal C (VC : valid_cfg C) addr search
  (SE : search_exact search) ls n qrng cnt coin fuel size w js c,
  Forall (fun l => ~ In 10%N l /\ ~ In 0%N l) ls -> let ss := firstn n ls in
  NoDup ss -> (forall i j, i < length ss -> j < length ss -> addr i = addr j -> i = j) ->
  (forall i, i < length ss -> addr i <> literal) -> w <= length ss -> 0 < fuel ->
  picks coin size (length ss) 0 0 = (js, c) -> countb coin (seq c (length ss - w)) = 0 ->
  let program := bench_words qlt literal search addr coin C qrng cnt n fuel size w (text ls) in
  (cnt = 0 -> program = Fail FOob) /\ (0 < cnt -> ss = [] -> program = Fail FAssert) /\
  (0 < cnt -> ss <> [] -> exists outs sts, program = Ok (outs, sts) /\
    length outs = cnt /\ map (map wrec) sts = outs /\
    forall i, i < cnt -> let j := qrng i mod length ss in
      exists s, nth_error ss j = Some s /\ nth_error outs i = Some [CRec s (addr j) (Z.of_nat j)]).
Proof. exact @words. Qed.
Print Assumptions C92_lookups_partial.

(** C92: with erases by tombstones, the program makes an insert of each record and erases
    of those at the chosen positions that it comes to; it succeeds if the erases are few
    enough, and what is stored then balances.  Missing: the answers (see above). *)
Theorem C92_fill_partial : forall (qlt : qorder crec) (QO : QOrder qlt) literal C (VC : valid_cfg C) addr
  ss coin fuel size w js c, (forall i, i < length ss -> addr i <> literal) ->
  c_del C = TOMBSTONE -> w <= length ss -> 0 < fuel ->
  picks coin size (length ss) 0 0 = (js, c) -> countb coin (seq c (length ss - w)) <= length js ->
  let recs := word_recs addr 0 ss in
  exists ops d', inserted ops = recs /\ d' <= length js /\ map Some (erased ops) = map (nth_error recs) (firstn d' js) /\
    (mostly_inserts (c_lwm C) ops -> exists e, word_fill qlt literal coin C fuel size w recs = Ok (e, d') /\
      run_new (trie_shards qlt literal) C ops = Ok (e, repeat 1 (length ops)) /\
      (c_layout C <> BSM -> forall r, n_plain r (stored e) + n_del r ops = n_tomb r (stored e) + n_ins r ops)).
Proof. exact @word_tombstones. Qed.
Print Assumptions C92_fill_partial.

(** ** A case: ten lines, of which three are chosen to be erased but no erase comes up *)

Definition fw_lines : list (list N) :=
  [[112; 101]; [97]; [122; 122]; [98; 97]; [110; 111]; [98]; [113]; [97; 98]; [109]; [122]]%N.
Definition fw_addr (i : nat) : nat := 100 + i.
Definition fw_coin (cs : list nat) (c : nat) : bool := existsb (Nat.eqb c) cs.
Definition fw_run (cs : list nat) (l : layout) (qrng : nat -> nat) (cnt size : nat) (ls : list (list N)) :=
  bench_words by_version 7 first_of fw_addr (fw_coin cs) (Cfg l TOMBSTONE 3 4 2) qrng cnt 10 1 size 1 (text ls).
Definition fw_rec (i : nat) : crec := CRec (nth i fw_lines []) (fw_addr i) (Z.of_nat i).

Example C92_case : Forall (fun l => ~ In 10%N l /\ ~ In 0%N l) fw_lines /\ NoDup fw_lines /\
  picks (fw_coin [0; 3; 4]) 3 10 0 0 = ([0; 3; 4], 5) /\ countb (fw_coin [0; 3; 4]) (seq 5 9) = 0 /\
  (forall l, exists sts, fw_run [0; 3; 4] l (fun i => 3 * i + 1) 5 3 fw_lines =
     Ok (map (fun i => [fw_rec i]) [1; 4; 7; 0; 3], sts) /\ map (map wrec) sts = map (fun i => [fw_rec i]) [1; 4; 7; 0; 3]) /\
  (** with erases that do come up *)
  (exists e, word_fill by_version 7 pg_coin (Cfg TIERING TOMBSTONE 3 4 2) 1 3 2 (word_recs fw_addr 0 fw_lines) = Ok (e, 2)) /\
  (** no queries *)
  fw_run [0; 3; 4] TIERING (fun i => i) 0 3 fw_lines = Fail FOob.
Proof.
  split; [repeat constructor; simpl; intros H; decompose [or] H; try discriminate; contradiction|].
  split; [repeat constructor; simpl; intros H; decompose [or] H; try discriminate; contradiction|].
  split; [vm_compute; reflexivity|]. split; [vm_compute; reflexivity|].
  split; [intros []; eexists; split; vm_compute; reflexivity|]. split; [eexists; vm_compute; reflexivity|]. vm_compute. reflexivity.
Qed.

(** C92 fails with erases: the program erases the record of the first line, and the index
    and the static structure still answer the query for that line with it. *)
Theorem C92_erased_refuted : exists (coin : nat -> bool) C ls js c outs sts e, valid_cfg C /\ c_del C = TOMBSTONE /\
  NoDup ls /\ picks coin 1 (length ls) 0 0 = (js, c) /\ js = [0] /\
  word_fill by_version 7 coin C 1 1 1 (word_recs fw_addr 0 ls) = Ok (e, 1) /\
  bench_words by_version 7 first_of fw_addr coin C (fun i => i) 1 10 1 1 1 (text ls) = Ok (outs, sts) /\
  outs = [[fw_rec 0]] /\ map (map wrec) sts = outs.
Proof.
  exists (fw_coin [0; 1]), (Cfg TIERING TOMBSTONE 3 4 2), fw_lines. do 5 eexists.
  split; [unfold valid_cfg; simpl; repeat split; lia || discriminate|]. split; [reflexivity|].
  split; [repeat constructor; simpl; intros H; decompose [or] H; try discriminate; contradiction|].
  split; [vm_compute; reflexivity|]. split; [reflexivity|]. split; [vm_compute; reflexivity|].
  split; [vm_compute; reflexivity|]. split; vm_compute; reflexivity.
Qed.
Print Assumptions C92_erased_refuted.

(** C92 fails with equal lines: the query for the second of two equal lines is answered
    by the static structure with the record of the first. *)
Theorem C92_repeated_refuted : exists ls outs sts, length ls = 4 /\
  fw_run [] TIERING (fun i => 3) 1 0 ls = Ok (outs, sts) /\
  nth_error (word_recs fw_addr 0 ls) 3 = Some (CRec [97%N] 103 3) /\ map (map wrec) sts = [[CRec [97%N] 101 1]].
Proof.
  exists [[112; 101]; [97]; [122]; [97]]%N. do 2 eexists.
  split; [reflexivity|]. split; [vm_compute; reflexivity|]. split; vm_compute; reflexivity.
Qed.
Print Assumptions C92_repeated_refuted.
