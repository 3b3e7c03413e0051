(** The files that the benchmarks read (C85, C86). *)
From Coq Require Import List Arith ZArith NArith Lia Bool.
From Verif Require Import Base RecordModel RecordProofs FileModel FileSpec FileProofs DriveSpec.
Import ListNotations.

(** C85: from a file that starts with keys of [k] bytes the first [n] are read, each with
    its position as the value, so that no two records are equal. *)
Theorem C85_keys : forall k key_of ks rest n, Forall (fits k) ks -> n <= length ks ->
  exists rs, read_sosd_file k key_of n (concat (map (le_bytes k) ks) ++ rest) = Ok rs /\ length rs = n /\
    (forall i x, i < n -> nth_error ks i = Some x -> nth_error rs i = Some (KV (key_of x) (Z.of_nat i))) /\
    all_different rs.
Proof. exact sosd_read. Qed.
Print Assumptions C85_keys.

(** C85: from a binary file of points the first [n] are read, or all if there are fewer. *)
Theorem C85_points : forall D dim ps rest n, Forall (fun p => length p = dim /\ Forall (fits 8) p) ps -> dim <= D ->
  (N.of_nat (length ps) < 2 ^ 31)%N -> (N.of_nat dim < 2 ^ 31)%N ->
  read_binary_vector_file D n
    (le_bytes 4 (N.of_nat (length ps)) ++ le_bytes 4 (N.of_nat dim) ++ concat (map point_bytes ps) ++ rest) =
  Ok (firstn n ps).
Proof. exact points_read. Qed.
Print Assumptions C85_points.

(** C85: from a text file the first [n] lines are read as strings. *)
Theorem C85_strings : forall n ls, Forall (fun l => ~ In 10%N l /\ ~ In 0%N l) ls ->
  read_string_file n (text ls) = firstn n ls.
Proof. exact strings_read. Qed.
Print Assumptions C85_strings.

(** C85: from a text file of numbers the first [D] of the first [n] lines are read. *)
Theorem C85_vectors : forall {V} (atof : list N -> V) D n rows, Forall (Forall word) rows ->
  read_vector_file atof D n (text (map spaced rows)) = map (fun ws => map atof (firstn D ws)) (firstn n rows).
Proof. exact @vectors_read. Qed.
Print Assumptions C85_vectors.

(** C86: the queries read from a file are those with bounds in order and a selectivity
    close to the wanted one, in the order of the file. *)
Theorem C86_range : forall {V} (scan : list N -> option (V * list N)) close qs fuel,
  Forall (good_line scan) qs -> length qs < fuel ->
  read_range_queries scan close fuel (query_text qs) =
  Ok (map (fun q => (ql_lo q, ql_hi q)) (filter (fun q => (ql_lo q <? ql_hi q)%N && close (ql_sel q)) qs)).
Proof. exact @range_read. Qed.
Print Assumptions C86_range.

(** C86: for point lookups the lower bounds of such lines are the search keys. *)
Theorem C86_lookup : forall {V} (scan : list N -> option (V * list N)) close qs fuel,
  Forall (good_line scan) qs -> length qs < fuel ->
  read_lookup_queries scan close fuel (query_text qs) =
  Ok (map ql_lo (filter (fun q => (ql_lo q <? ql_hi q)%N && close (ql_sel q)) qs)).
Proof. exact @lookup_read. Qed.
Print Assumptions C86_lookup.

(** C86: kNN queries are the points of the lines, if the words of a line are separated by
    one space and there are no more of them than dimensions.  (atof ignores the line end
    after a number.) *)
Theorem C86_knn : forall {V} (atof : list N -> V) D k rows, (forall w, word w -> atof (w ++ [10%N]) = atof w) ->
  Forall (fun r => Forall word r /\ 1 <= length r <= D) rows ->
  read_knn_queries atof D k (text (map spaced rows)) = Ok (map (fun r => (map atof r, k)) rows).
Proof. exact @knn_read. Qed.
Print Assumptions C86_knn.

(** C86: kNN queries from a binary file are its points. *)
Theorem C86_binary_knn : forall D k dim ps rest n, Forall (fun p => length p = dim /\ Forall (fits 8) p) ps -> dim <= D ->
  (N.of_nat (length ps) < 2 ^ 31)%N -> (N.of_nat dim < 2 ^ 31)%N ->
  read_binary_knn_queries D k n
    (le_bytes 4 (N.of_nat (length ps)) ++ le_bytes 4 (N.of_nat dim) ++ concat (map point_bytes ps) ++ rest) =
  Ok (map (fun p => (p, k)) (firstn n ps)).
Proof. exact binary_knn_read. Qed.
Print Assumptions C86_binary_knn.

(** C86: generated string lookups ask for strings of the list, as the random numbers say. *)
Theorem C86_strings : forall rng cnt (strings : list (list N)), strings <> [] ->
  exists qs, generate_string_lookup_queries rng cnt strings = Ok qs /\ length qs = cnt /\
    forall i, i < cnt -> nth_error qs i = nth_error strings (rng i mod length strings).
Proof. exact string_queries. Qed.
Print Assumptions C86_strings.

(** ** Cases *)

Example C85_case : Forall (fits 8) [7; 500; 2 ^ 63]%N /\
  read_sosd_file 8 Z.of_N 3 (concat (map (le_bytes 8) [7; 500; 2 ^ 63]%N) ++ [1; 2]%N) =
  Ok [KV 7 0; KV 500 1; KV (2 ^ 63) 2]%Z.
Proof. split; [repeat constructor|vm_compute; reflexivity]. Qed.

Example C85_points_case : Forall (fun p => length p = 2 /\ Forall (fits 8) p) [[1; 300]; [2; 0]; [5; 6]]%N /\
  read_binary_vector_file 3 2 (le_bytes 4 3 ++ le_bytes 4 2 ++ concat (map point_bytes [[1; 300]; [2; 0]; [5; 6]])%N) =
  Ok [[1; 300]; [2; 0]]%N.
Proof. split; [repeat constructor|vm_compute; reflexivity]. Qed.

(** Three lines, "ab", "" and "c", and the words "12 7" and "3 45 6". *)
Example C85_text_case : read_string_file 2 (text [[97; 98]; []; [99]]%N) = [[97; 98]; []]%N /\
  Forall (Forall word) [[[49; 50]; [55]]; [[51]; [52; 53]; [54]]]%N /\
  read_vector_file (fun w => length w) 2 5 (text (map spaced [[[49; 50]; [55]]; [[51]; [52; 53]; [54]]]%N)) = [[2; 1]; [1; 2]].
Proof.
  split; [reflexivity|]. split; [|reflexivity].
  assert (W : forall w, w <> [] -> forallb (fun c => negb (c =? 32)%N && negb (c =? 10)%N) w = true -> word w).
  { intros w NE H. rewrite forallb_forall in H. split; auto. split; intros I; apply H in I; discriminate. }
  repeat constructor; apply W; try discriminate; reflexivity.
Qed.

(** A scanner for selectivities that reads them as numbers of digits, and two lines:
    "12 40 5" and "9 3 5". *)
Definition sel_scan (f : list N) : option (N * list N) :=
  match f with x :: _ => if digit_char x then Some (scan_digits 0 f) else None | [] => None end.
Definition q_lines : list (qline N) :=
  [QL ([49; 50], [52; 48], [53])%N 12 40 5%N; QL ([57], [51], [53])%N 9 3 5%N; QL ([49], [50], [55])%N 1 2 7%N].
Example q_good : Forall (good_line sel_scan) q_lines.
Proof.
  repeat constructor; try discriminate; try (vm_compute; reflexivity);
    try (do 2 eexists; split; [reflexivity|lia]);
    intros c rest [->| ->]; reflexivity.
Qed.
Example C86_case : read_range_queries sel_scan (N.eqb 5) 4 (query_text q_lines) = Ok [(12, 40)]%N /\
  read_lookup_queries sel_scan (fun _ => true) 4 (query_text q_lines) = Ok [12; 1]%N.
Proof. split; vm_compute; reflexivity. Qed.
Example C86_knn_case : read_knn_queries (fun w => until_nul (filter digit_char w)) 2 10
    (text (map spaced [[[49; 50]; [55]]; [[51]]]%N)) = Ok [([[49; 50]; [55]]%N, 10); ([[51]]%N, 10)].
Proof. vm_compute. reflexivity. Qed.

(** ** What fails *)

(** C85 fails for a file with fewer keys than asked for: keys without a value are used. *)
Theorem C85_short_refuted : exists k key_of ks n, Forall (fits k) ks /\
  read_sosd_file k key_of n (concat (map (le_bytes k) ks)) = Fail FOob.
Proof. exists 8, Z.of_N, [7; 500]%N, 3. split; [repeat constructor|vm_compute; reflexivity]. Qed.
Print Assumptions C85_short_refuted.

(** C85 fails for points with more dimensions than the records have: they are written
    outside the record. *)
Theorem C85_dim_refuted : exists D dim ps, Forall (fun p => length p = dim /\ Forall (fits 8) p) ps /\
  read_binary_vector_file D 1 (le_bytes 4 (N.of_nat (length ps)) ++ le_bytes 4 (N.of_nat dim) ++ concat (map point_bytes ps)) =
  Fail FOob.
Proof. exists 2, 3, [[1; 2; 3]%N]. split; [repeat constructor|vm_compute; reflexivity]. Qed.
Print Assumptions C85_dim_refuted.

(** C86 fails if a line follows that is not a number, here "x": reading never ends. *)
Theorem C86_text_refuted : exists qs f, Forall (good_line sel_scan) qs /\ f = [120; 10]%N /\
  forall fuel, read_range_queries sel_scan (N.eqb 5) fuel (query_text qs ++ f) = Fail FLoop.
Proof.
  exists q_lines, [120; 10]%N. split; [exact q_good|]. split; [reflexivity|].
  apply (range_stuck sel_scan (N.eqb 5) q_lines [120; 10]%N 120%N q_good); [eauto|lia|reflexivity|discriminate].
Qed.
Print Assumptions C86_text_refuted.

(** C86 fails if the last line has no selectivity, here "50 60": that of the line before
    is used. *)
Theorem C86_cut_refuted : exists qs f, Forall (good_line sel_scan) qs /\ f = [53; 48; 32; 54; 48]%N /\
  read_range_queries sel_scan (N.eqb 7) 5 (query_text qs ++ f) = Ok [(1, 2); (50, 60)]%N.
Proof. exists q_lines, [53; 48; 32; 54; 48]%N. split; [exact q_good|]. split; [reflexivity|]. vm_compute. reflexivity. Qed.
Print Assumptions C86_cut_refuted.

(** C86 fails for a line with a space at its end and as many numbers as dimensions: the
    line end is taken for one more number, which is written outside the point. *)
Theorem C86_space_refuted : exists D k f, f = [49; 32; 50; 32; 10]%N /\ D = 2 /\
  read_knn_queries (fun w => length w) D k f = Fail FOob.
Proof. exists 2, 10, [49; 32; 50; 32; 10]%N. repeat split; vm_compute; reflexivity. Qed.
Print Assumptions C86_space_refuted.

(** C86 fails for a last line of spaces without an end: there is no number to convert. *)
Theorem C86_blank_refuted : exists D k f, f = [49; 32; 50; 10; 32]%N /\ D = 2 /\
  read_knn_queries (fun w => length w) D k f = Fail FNull.
Proof. exists 2, 10, [49; 32; 50; 10; 32]%N. repeat split; vm_compute; reflexivity. Qed.
Print Assumptions C86_blank_refuted.
