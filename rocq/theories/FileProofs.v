(** Proofs about the files of the benchmarks. *)
From Coq Require Import List Arith ZArith NArith Lia Bool.
From Verif Require Import Base ListLemmas RecordModel RecordProofs FileModel FileSpec DriveSpec.
Import ListNotations.

(** ** Binary files *)

Lemma le_bytes_len : forall k x, length (le_bytes k x) = k.
Proof. induction k; intros; simpl; auto. Qed.

Lemma le_round : forall k x, fits k x -> le_value (le_bytes k x) = x.
Proof.
  unfold fits. induction k as [|k IH]; intros x F.
  - simpl in *. lia.
  - cbn [le_bytes le_value fold_right]. fold (le_value (le_bytes k (x / 256))). rewrite IH.
    + rewrite (N.div_mod x 256) at 3 by lia. lia.
    + apply N.div_lt_upper_bound; [lia|]. rewrite Nat2N.inj_succ, N.pow_succ_r in F by lia. lia.
Qed.

Lemma read_le : forall k x f, fits k x -> read_number k (le_bytes k x ++ f) = Ok (x, f).
Proof.
  intros k x f F. unfold read_number. rewrite app_length, le_bytes_len.
  destruct (Nat.leb_spec k (k + length f)); [|lia].
  rewrite firstn_app, skipn_app, le_bytes_len, Nat.sub_diag, firstn_all2, skipn_all2 by (rewrite le_bytes_len; auto).
  simpl. rewrite app_nil_r, le_round; auto.
Qed.

Lemma sosd_ok : forall k key_of n i ks rest, Forall (fits k) ks -> n <= length ks ->
  sosd_loop k key_of n i (concat (map (le_bytes k) ks) ++ rest) =
  Ok (map (fun '(x, j) => KV (key_of x) (Z.of_nat j)) (combine (firstn n ks) (seq i n))).
Proof.
  induction n as [|n IH]; intros i ks rest F L; auto. destruct ks as [|x ks]; [simpl in L; lia|].
  inversion F; subst. cbn [map concat sosd_loop]. rewrite <- app_assoc, read_le by auto. cbn [bind].
  rewrite IH by (auto; simpl in L; lia). reflexivity.
Qed.

Lemma combine_nth : forall {A} n i j (l : list A) x, nth_error l i = Some x -> i < n ->
  nth_error (combine (firstn n l) (seq j n)) i = Some (x, j + i).
Proof.
  induction n; intros i j l x E L; [lia|]. destruct l as [|a l]; [destruct i; discriminate|].
  destruct i; simpl in *; [injection E as ->; do 2 f_equal; lia|]. rewrite (IHn i (S j) l x E) by lia. do 2 f_equal. lia.
Qed.

Theorem sosd_read : forall k key_of ks rest n, Forall (fits k) ks -> n <= length ks ->
  exists rs, read_sosd_file k key_of n (concat (map (le_bytes k) ks) ++ rest) = Ok rs /\ length rs = n /\
    (forall i x, i < n -> nth_error ks i = Some x -> nth_error rs i = Some (KV (key_of x) (Z.of_nat i))) /\
    all_different rs.
Proof.
  intros k key_of ks rest n F L. unfold read_sosd_file. rewrite sosd_ok by auto. eexists. split; [reflexivity|].
  assert (LEN : length (map (fun '(x, j) => KV (key_of x) (Z.of_nat j)) (combine (firstn n ks) (seq 0 n))) = n).
  { rewrite map_length, combine_length, firstn_length, seq_length. lia. }
  assert (NTH : forall i x, i < n -> nth_error ks i = Some x ->
    nth_error (map (fun '(x, j) => KV (key_of x) (Z.of_nat j)) (combine (firstn n ks) (seq 0 n))) i =
    Some (KV (key_of x) (Z.of_nat i))).
  { intros i x I E. erewrite map_nth_error; [|apply combine_nth; eauto]. reflexivity. }
  split; auto. split; auto.
  assert (VAL : forall i a, nth_error (map (fun '(x, j) => KV (key_of x) (Z.of_nat j)) (combine (firstn n ks) (seq 0 n))) i = Some a ->
    k_val a = Z.of_nat i).
  { intros i a E. assert (I : i < n) by (rewrite <- LEN; apply nth_error_Some; congruence).
    destruct (nth_error ks i) as [x|] eqn:EX; [|apply nth_error_None in EX; lia].
    rewrite (NTH i x I EX) in E. injection E as <-. reflexivity. }
  intros i j a b Ea Eb Q. apply VAL in Ea, Eb. cbn in Q. apply andb_true_iff in Q as (_ & Q).
  apply Z.eqb_eq in Q. lia.
Qed.

Lemma components_ok : forall p f, Forall (fits 8) p -> read_components (length p) (point_bytes p ++ f) = Ok (p, f).
Proof.
  unfold point_bytes. induction p as [|x p IH]; intros f F; auto. inversion F; subst.
  cbn [length map concat read_components]. rewrite <- app_assoc, read_le by auto. cbn [bind]. rewrite IH by auto. reflexivity.
Qed.

Lemma points_ok : forall D dim n ps rest, Forall (fun p => N.of_nat (length p) = dim /\ Forall (fits 8) p) ps ->
  (dim <= N.of_nat D)%N -> n <= length ps ->
  points_loop D dim n (concat (map point_bytes ps) ++ rest) = Ok (firstn n ps).
Proof.
  induction n as [|n IH]; intros ps rest F LD L; auto. destruct ps as [|p ps]; [simpl in L; lia|].
  inversion F as [|? ? (PL & PF) F']; subst. cbn [map concat points_loop firstn].
  destruct (N.ltb_spec (N.of_nat D) (N.of_nat (length p))); [lia|].
  rewrite Nat2N.id, <- app_assoc, components_ok by auto. cbn [bind]. rewrite IH by (auto; simpl in L; lia). reflexivity.
Qed.

Theorem points_read : forall D dim ps rest n, Forall (fun p => length p = dim /\ Forall (fits 8) p) ps -> dim <= D ->
  (N.of_nat (length ps) < 2 ^ 31)%N -> (N.of_nat dim < 2 ^ 31)%N ->
  read_binary_vector_file D n
    (le_bytes 4 (N.of_nat (length ps)) ++ le_bytes 4 (N.of_nat dim) ++ concat (map point_bytes ps) ++ rest) =
  Ok (firstn n ps).
Proof.
  intros D dim ps rest n F LD LP LX. unfold read_binary_vector_file.
  assert (B : forall x, (x < 2 ^ 31)%N -> fits 4 x). { intros x H. unfold fits. change (256 ^ N.of_nat 4)%N with (2 ^ 32)%N. lia. }
  rewrite read_le by auto. cbn [bind]. rewrite read_le by auto. cbn [bind].
  assert (I : forall x, (x < 2 ^ 31)%N -> int32_size x = x).
  { intros x H. unfold int32_size. destruct (N.ltb_spec x (2 ^ 31)); auto. lia. }
  rewrite !I by auto. rewrite Nat2N.id.
  assert (F' : Forall (fun p => N.of_nat (length p) = N.of_nat dim /\ Forall (fits 8) p) ps).
  { eapply Forall_impl; [|exact F]. intros p (-> & H). auto. }
  destruct (N.ltb_spec (N.of_nat (length ps)) (N.of_nat n)) as [LT|GE].
  - rewrite points_ok by (auto; lia). rewrite !firstn_all2 by lia. reflexivity.
  - apply points_ok; auto; lia.
Qed.

Theorem binary_knn_read : forall D k dim ps rest n, Forall (fun p => length p = dim /\ Forall (fits 8) p) ps -> dim <= D ->
  (N.of_nat (length ps) < 2 ^ 31)%N -> (N.of_nat dim < 2 ^ 31)%N ->
  read_binary_knn_queries D k n
    (le_bytes 4 (N.of_nat (length ps)) ++ le_bytes 4 (N.of_nat dim) ++ concat (map point_bytes ps) ++ rest) =
  Ok (map (fun p => (p, k)) (firstn n ps)).
Proof. intros. unfold read_binary_knn_queries. rewrite points_read by auto. reflexivity. Qed.

(** ** Text files *)

Lemma cut_at : forall c l f, ~ In c l -> cut c (l ++ c :: f) = (l, f).
Proof.
  induction l as [|x l IH]; intros f H; simpl.
  - rewrite N.eqb_refl. auto.
  - destruct (N.eqb_spec x c) as [->|]; [elim H; now left|]. rewrite IH; auto. intros I. apply H. now right.
Qed.
Lemma cut_end : forall c l, ~ In c l -> cut c l = (l, []).
Proof.
  induction l as [|x l IH]; intros H; simpl; auto.
  destruct (N.eqb_spec x c) as [->|]; [elim H; now left|]. rewrite IH; auto. intros I. apply H. now right.
Qed.

Lemma pieces_text : forall n ls, Forall (fun l => ~ In 10%N l) ls -> pieces 10 n (text ls) = firstn n ls.
Proof.
  induction n as [|n IH]; intros ls F; auto. destruct ls as [|l ls]; auto. inversion F; subst.
  unfold text. cbn [map concat firstn pieces]. rewrite <- app_assoc. cbn [app].
  destruct (l ++ 10%N :: concat (map (fun l => l ++ [10%N]) ls)) eqn:E; [destruct l; discriminate|].
  rewrite <- E, cut_at by auto. cbn [fst snd]. f_equal. apply IH. auto.
Qed.

Lemma until_nul_id : forall s, ~ In 0%N s -> until_nul s = s.
Proof.
  induction s as [|x s IH]; intros H; simpl; auto. destruct (N.eqb_spec x 0) as [->|]; [elim H; now left|].
  f_equal. apply IH. intros I. apply H. now right.
Qed.

Theorem strings_read : forall n ls, Forall (fun l => ~ In 10%N l /\ ~ In 0%N l) ls ->
  read_string_file n (text ls) = firstn n ls.
Proof.
  intros n ls F. unfold read_string_file. rewrite pieces_text.
  - assert (G : Forall (fun l => ~ In 0%N l) (firstn n ls)).
    { rewrite Forall_forall in *. intros l I. apply F. rewrite <- (firstn_skipn n ls). apply in_app_iff. auto. }
    induction G; simpl; auto. rewrite until_nul_id by auto. f_equal. auto.
  - eapply Forall_impl; [|exact F]. intros l (H & _). auto.
Qed.

Theorem string_queries : forall rng cnt (strings : list (list N)), strings <> [] ->
  exists qs, generate_string_lookup_queries rng cnt strings = Ok qs /\ length qs = cnt /\
    forall i, i < cnt -> nth_error qs i = nth_error strings (rng i mod length strings).
Proof.
  intros rng cnt strings NE. unfold generate_string_lookup_queries.
  assert (L : length strings <> 0) by (destruct strings; [congruence|discriminate]).
  assert (K : forall n j, exists qs, map_res (fun i => if length strings =? 0 then Fail FAssert
      else nth_res (rng i mod length strings) strings) (seq j n) = Ok qs /\ length qs = n /\
      forall i, i < n -> nth_error qs i = nth_error strings (rng (j + i) mod length strings)).
  { induction n as [|n IH]; intros j; [exists []; repeat split; auto; intros; lia|].
    destruct (IH (S j)) as (qs & E & LQ & H). cbn [seq map_res].
    destruct (Nat.eqb_spec (length strings) 0); [contradiction|]. unfold nth_res at 1.
    pose proof (Nat.mod_upper_bound (rng j) _ L) as B.
    destruct (nth_error strings (rng j mod length strings)) as [s|] eqn:S; [|apply nth_error_None in S; lia].
    cbn [bind]. rewrite E. cbn [bind]. exists (s :: qs). split; auto. split; [simpl; lia|].
    intros [|i] I; cbn [nth_error]; [rewrite Nat.add_0_r; auto|]. rewrite (H i) by lia. do 2 f_equal. f_equal. lia. }
  apply (K cnt 0).
Qed.

Lemma pieces_spaced : forall D ws, Forall word ws -> pieces 32 D (spaced ws) = firstn D ws.
Proof.
  induction D as [|D IH]; intros ws F; auto. destruct ws as [|w ws]; auto.
  inversion F as [|? ? (NE & NS & _) F']; subst. cbn [firstn].
  destruct ws as [|w' ws].
  - cbn [spaced pieces]. destruct w as [|x w]; [contradiction|]. rewrite cut_end by auto. cbn [fst snd].
    destruct D; reflexivity.
  - change (spaced (w :: w' :: ws)) with (w ++ 32%N :: spaced (w' :: ws)). cbn [pieces].
    destruct (w ++ 32%N :: spaced (w' :: ws)) eqn:E; [destruct w; discriminate|].
    rewrite <- E, cut_at by auto. cbn [fst snd]. f_equal. apply IH. auto.
Qed.

Lemma spaced_no_end : forall ws, Forall word ws -> ~ In 10%N (spaced ws).
Proof.
  induction ws as [|w ws IH]; intros F I; [destruct I|]. inversion F as [|? ? (NE & NS & NL) F']; subst.
  destruct ws as [|w' ws]; [contradiction|]. change (spaced (w :: w' :: ws)) with (w ++ 32%N :: spaced (w' :: ws)) in I.
  apply in_app_iff in I as [I|[I|I]]; [contradiction|discriminate|]. apply IH; auto.
Qed.

Theorem vectors_read : forall {V} (atof : list N -> V) D n rows, Forall (Forall word) rows ->
  read_vector_file atof D n (text (map spaced rows)) = map (fun ws => map atof (firstn D ws)) (firstn n rows).
Proof.
  intros V atof D n rows F. unfold read_vector_file. rewrite pieces_text.
  - rewrite <- firstn_map, map_map. revert rows F. induction n; intros [|r rows] F; auto.
    inversion F; subst. simpl. rewrite pieces_spaced by auto. f_equal. apply IHn. auto.
  - apply Forall_forall. intros l I. apply in_map_iff in I as (r & <- & I). apply spaced_no_end.
    rewrite Forall_forall in F. auto.
Qed.

(** ** kNN queries *)

Lemma tokens_word : forall w t s, ~ In 32%N w -> tokens t (w ++ s) = tokens (t ++ w) s.
Proof.
  induction w as [|x w IH]; intros t s H; simpl; [rewrite app_nil_r; auto|].
  destruct (N.eqb_spec x 32) as [->|]; [elim H; now left|]. rewrite IH, <- app_assoc; auto. intros I. apply H. now right.
Qed.

Lemma tokens_spaced : forall ws w, Forall word ws -> ~ In 32%N w -> w <> [] ->
  tokens [] (spaced (ws ++ [w])) = ws ++ [w].
Proof.
  induction ws as [|v ws IH]; intros w F H NE.
  - cbn [app spaced]. rewrite <- (app_nil_r w) at 1. rewrite tokens_word by auto. cbn [app tokens]. destruct w; [contradiction|auto].
  - inversion F as [|? ? (NV & NS & _) F']; subst.
    assert (spaced ((v :: ws) ++ [w]) = v ++ 32%N :: spaced (ws ++ [w])) as ->.
    { cbn [app spaced]. destruct (ws ++ [w]) eqn:E; auto. destruct ws; discriminate. }
    rewrite tokens_word by auto. cbn [app tokens]. change (32 =? 32)%N with true. cbn iota.
    destruct v; [contradiction|]. cbn [app]. rewrite IH by auto. reflexivity.
Qed.

Lemma cut_line_at : forall l f, ~ In 10%N l -> cut_line (l ++ 10%N :: f) = (l ++ [10%N], f).
Proof.
  induction l as [|x l IH]; intros f H; simpl; auto.
  destruct (N.eqb_spec x 10) as [->|]; [elim H; now left|]. rewrite IH; auto. intros I. apply H. now right.
Qed.

Lemma spaced_last : forall ws w c, spaced (ws ++ [w]) ++ [c] = spaced (ws ++ [w ++ [c]]).
Proof.
  induction ws as [|v ws IH]; intros w c; auto.
  assert (A : forall u, spaced ((v :: ws) ++ [u]) = v ++ 32%N :: spaced (ws ++ [u])).
  { intros u. cbn [app spaced]. destruct (ws ++ [u]) eqn:E; auto. destruct ws; discriminate. }
  rewrite !A, <- app_assoc. cbn [app]. rewrite IH. auto.
Qed.

Lemma knn_point_ok : forall {V} (atof : list N -> V) D r, (forall w, word w -> atof (w ++ [10%N]) = atof w) ->
  Forall word r -> 1 <= length r <= D -> knn_point atof D (spaced r ++ [10%N]) = Ok (map atof r).
Proof.
  intros V atof D r A F L. destruct (exists_last (l := r)) as (ws & w & ->); [destruct r; simpl in L; [lia|discriminate]|].
  apply Forall_app in F as (F & FW). inversion FW as [|? ? W _]; subst. pose proof W as (NE & NS & _).
  unfold knn_point. rewrite spaced_last, tokens_spaced; auto.
  - destruct (ws ++ [w ++ [10%N]]) eqn:E; [destruct ws; discriminate|]. rewrite <- E. rewrite app_length in *. simpl in *.
    destruct (Nat.ltb_spec D (length ws + 1)); [lia|]. rewrite !map_app. cbn [map]. rewrite A; auto.
  - intros I. apply in_app_iff in I as [I|[I|[]]]; [contradiction|discriminate].
  - destruct w; discriminate.
Qed.

Theorem knn_read : forall {V} (atof : list N -> V) D k rows, (forall w, word w -> atof (w ++ [10%N]) = atof w) ->
  Forall (fun r => Forall word r /\ 1 <= length r <= D) rows ->
  read_knn_queries atof D k (text (map spaced rows)) = Ok (map (fun r => (map atof r, k)) rows).
Proof.
  intros V atof D k rows A F. unfold read_knn_queries.
  assert (K : forall fuel rows, Forall (fun r => Forall word r /\ 1 <= length r <= D) rows ->
    length (text (map spaced rows)) < fuel ->
    knn_lines atof fuel D k (text (map spaced rows)) = Ok (map (fun r => (map atof r, k)) rows)).
  { induction fuel as [|fuel IH]; intros rs G L; [lia|]. destruct rs as [|r rs]; auto.
    inversion G as [|? ? (GW & GL) G']; subst. unfold text in *. cbn [map concat] in *. rewrite <- app_assoc in *. cbn [app] in *.
    cbn [knn_lines]. destruct (spaced r ++ 10%N :: concat (map (fun l => l ++ [10%N]) (map spaced rs))) eqn:E; [destruct (spaced r); discriminate|].
    rewrite <- E in *. rewrite cut_line_at by (apply spaced_no_end; auto). cbn [fst snd].
    rewrite knn_point_ok by auto. cbn [bind]. rewrite IH; auto. rewrite app_length in L. simpl in L. lia. }
  apply K; auto.
Qed.

(** ** Range queries *)

Lemma digit_iff : forall d, (48 <= d <= 57)%N -> digit_char d = true.
Proof. intros d (A & B). unfold digit_char. apply andb_true_iff. split; apply N.leb_le; auto. Qed.

Lemma digits_ok : forall ds a c rest, Forall (fun d => 48 <= d <= 57)%N ds -> digit_char c = false ->
  scan_digits a (ds ++ c :: rest) = (fold_left (fun a d => 10 * a + (d - 48))%N ds a, c :: rest).
Proof.
  induction ds as [|d ds IH]; intros a c rest F H; cbn [app scan_digits fold_left].
  - rewrite H. auto.
  - inversion F; subst. rewrite digit_iff by auto. apply IH; auto.
Qed.

Lemma size_ok : forall ds x c rest, numeral ds x -> (x < 2 ^ 64)%N -> digit_char c = false ->
  scan_size (ds ++ c :: rest) = Some (x, c :: rest).
Proof.
  intros ds x c rest (NE & F & E) B H. destruct ds as [|d ds]; [contradiction|]. inversion F as [|? ? FD FS]; subst.
  assert (N1 : d <> 43%N) by lia. assert (N2 : d <> 45%N) by lia.
  assert (X : scan_size ((d :: ds) ++ c :: rest) =
    let '(a, g') := scan_digits 0 ((d :: ds) ++ c :: rest) in Some (N.min a (2 ^ 64 - 1), g')).
  { unfold scan_size. cbn [app]. rewrite (digit_iff d FD).
    destruct d as [|d]; [lia|]. do 6 (destruct d as [d|d|]; try reflexivity; try lia). }
  rewrite X, digits_ok by auto. cbn iota. do 2 f_equal. lia.
Qed.

Lemma skip_char : forall c f, (33 <= c)%N -> skip_blanks (c :: f) = c :: f.
Proof.
  intros c f H. cbn [skip_blanks]. replace (blank_char c) with false; auto. symmetry. unfold blank_char.
  apply orb_false_iff. split; [apply N.eqb_neq; lia|]. apply andb_false_iff. right. apply N.leb_gt. lia.
Qed.
Lemma skip_space : forall f, skip_blanks (32%N :: f) = skip_blanks f. Proof. reflexivity. Qed.
Lemma skip_end : forall f, skip_blanks (10%N :: f) = skip_blanks f. Proof. reflexivity. Qed.
Lemma skip_twice : forall f, skip_blanks (skip_blanks f) = skip_blanks f.
Proof. induction f as [|x f IH]; auto. cbn [skip_blanks]. destruct (blank_char x) eqn:E; auto. cbn [skip_blanks]. rewrite E. auto. Qed.

Lemma skip_numeral : forall ds x f, numeral ds x -> skip_blanks (ds ++ f) = ds ++ f.
Proof.
  intros ds x f (NE & F & _). destruct ds as [|d ds]; [contradiction|]. inversion F; subst. apply skip_char. lia.
Qed.

Section RQ.
Context {V : Type} (scan : list N -> option (V * list N)) (close : V -> bool).

Lemma line_ok : forall q v f, good_line scan q ->
  scan_line scan v (query_text [q] ++ f) =
  Some (SC (Some (ql_lo q)) (Some (ql_hi q)) (Some (ql_sel q)), skip_blanks f).
Proof.
  intros q v f G. unfold good_line in G. unfold query_text, text. cbn [map concat].
  destruct (ql_text q) as [[a b] s]. destruct G as (NA & NB & ((c & t & -> & C) & RS) & BA & BB).
  cbn [spaced]. rewrite app_nil_r, <- !app_assoc. cbn [app]. rewrite <- !app_assoc. cbn [app].
  unfold scan_line. rewrite (skip_numeral _ _ _ NA).
  destruct (a ++ 32%N :: b ++ 32%N :: c :: t ++ 10%N :: f) as [|h l] eqn:E.
  { destruct NA as (NE & _). destruct a; [contradiction|discriminate]. }
  rewrite <- E. clear E h l. rewrite (size_ok a _ 32%N _ NA BA eq_refl).
  rewrite skip_space, (skip_numeral _ _ _ NB), (size_ok b _ 32%N _ NB BB eq_refl).
  rewrite skip_space, skip_char by auto. specialize (RS 10%N f (or_introl eq_refl)). cbn [app] in RS. rewrite RS.
  rewrite skip_end. reflexivity.
Qed.

Lemma scan_skip : forall v f, scan_line scan v (skip_blanks f) = scan_line scan v f.
Proof. intros. unfold scan_line. rewrite skip_twice. auto. Qed.
Lemma loop_skip : forall fuel v f, range_loop scan close fuel v (skip_blanks f) = range_loop scan close fuel v f.
Proof. intros [|fuel] v f; auto. cbn [range_loop]. rewrite scan_skip. auto. Qed.

Lemma text_cons : forall (q : qline V) qs, query_text (q :: qs) = query_text [q] ++ query_text qs.
Proof. intros. unfold query_text, text. cbn [map concat]. rewrite app_nil_r. auto. Qed.

Theorem range_read : forall qs fuel, Forall (good_line scan) qs -> length qs < fuel ->
  read_range_queries scan close fuel (query_text qs) =
  Ok (map (fun q => (ql_lo q, ql_hi q)) (filter (fun q => (ql_lo q <? ql_hi q)%N && close (ql_sel q)) qs)).
Proof.
  unfold read_range_queries. intros qs. generalize (SC (V := V) None None None).
  induction qs as [|q qs IH]; intros v fuel F L; (destruct fuel as [|fuel]; [simpl in L; lia|]); [reflexivity|].
  inversion F; subst. rewrite text_cons. cbn [range_loop]. rewrite line_ok by auto. rewrite loop_skip.
  rewrite IH by (auto; simpl in L; lia). unfold accepted. cbn [sc_start sc_stop sc_sel filter].
  destruct (ql_lo q <? ql_hi q)%N; [destruct (close (ql_sel q))|]; reflexivity.
Qed.

Theorem lookup_read : forall qs fuel, Forall (good_line scan) qs -> length qs < fuel ->
  read_lookup_queries scan close fuel (query_text qs) =
  Ok (map ql_lo (filter (fun q => (ql_lo q <? ql_hi q)%N && close (ql_sel q)) qs)).
Proof. intros qs fuel F L. unfold read_lookup_queries. rewrite range_read by auto. cbn [bind]. rewrite map_map. reflexivity. Qed.

(** Text that starts neither with blanks nor with a number is looked at again and again. *)
Theorem range_stuck : forall qs f c, Forall (good_line scan) qs -> (exists t, f = c :: t) -> (33 <= c)%N ->
  scan_size f = None -> qs <> [] ->
  forall fuel, read_range_queries scan close fuel (query_text qs ++ f) = Fail FLoop.
Proof.
  intros qs f c F (t & ->) C SN NE fuel. unfold read_range_queries.
  assert (STUCK : forall fuel a b x, range_loop scan close fuel (SC (Some a) (Some b) (Some x)) (c :: t) = Fail FLoop).
  { clear fuel. induction fuel as [|fuel IH]; intros a b x; auto. cbn [range_loop]. unfold scan_line.
    rewrite skip_char, SN by auto. unfold accepted. cbn [sc_start sc_stop sc_sel].
    destruct (a <? b)%N; cbn [bind]; rewrite IH; auto. }
  destruct qs as [|q qs]; [contradiction|]. clear NE.
  revert q F fuel. generalize (SC (V := V) None None None). induction qs as [|q' qs IH]; intros v q F fuel; (destruct fuel as [|fuel]; [reflexivity|]);
    inversion F; subst; rewrite text_cons, <- app_assoc; cbn [range_loop]; rewrite line_ok by auto; rewrite loop_skip.
  - unfold accepted. cbn [sc_start sc_stop sc_sel]. unfold query_text at 1, text. cbn [map concat app].
    destruct (ql_lo q <? ql_hi q)%N; cbn [bind]; rewrite STUCK; auto.
  - unfold accepted. cbn [sc_start sc_stop sc_sel].
    destruct (ql_lo q <? ql_hi q)%N; cbn [bind]; rewrite IH; auto.
Qed.
End RQ.
