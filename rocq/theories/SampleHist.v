(** Sampling after a history of calls, and the distribution of weighted samples. *)
From Coq Require Import List Arith ZArith NArith Lia Bool Sorted Permutation.
From Verif Require Import Base RecordModel RecordProofs ListLemmas BufferModel MergeModel MergeProofs BufferProofs
  StructModel ExtModel StructProofs ExtProofs ContentProofs Spec QueryModel QueryProofs SerialProofs LevelProofs
  CountProofs BsmProofs ISAMModel ISAMProofs SampleModel SampleSpec SampleProofs DistProofs.
Import ListNotations.

(** ** Histories *)

Section Hist.
Context {R : Type} {RO : RecOps R} {RL : RecLaws R}.
Variable qlt : qorder R.
Context {QO : QOrder qlt}.
Variable C : cfg.
Hypothesis V : valid_cfg C.
Local Lemma LW : 1 <= c_lwm C. Proof. destruct V as (? & ? & ? & ?). auto. Qed.
Local Lemma WM : c_lwm C <= c_hwm C. Proof. destruct V as (? & ? & ? & ?). auto. Qed.
Local Lemma SF : 1 <= c_sf C. Proof. destruct V as (? & ? & ? & ?). auto. Qed.

(** What a sampling query works on: the buffer and non-empty sorted arrays. *)
Lemma sample_view : forall ops e rs, run_new qlt C ops = Ok (e, rs) ->
  (forall ls d, In ls (levels_of e) -> In d ls -> d <> []) ->
  exists ws ds, Forall (fun d => d <> [] /\ sorted d) ds /\ Permutation (ws ++ concat ds) (stored e) /\
    forall A (f : list (wrapped R) -> list (list (wrapped R)) -> res A),
    with_epoch e (fun st d v => do w <- v_records d v; f w (query_data st)) = do a <- f ws ds; Ok (e, a).
Proof.
  intros ops e rs H NE. destruct (run_any qlt C V _ _ _ H) as (st & win & pos & tsn & k & A).
  assert (I : einv C e st win pos tsn) by apply A.
  apply (shards_nonempty C _ _ _ _ _ I) in NE. pose proof (as_ok _ _ _ _ _ _ _ _ A) as OK.
  exists win, (query_data st). split; [|split].
  - apply Forall_forall. intros d D. apply in_map_iff in D as (s & <- & S).
    apply (Permutation_in _ (query_shards_perm st)) in S. rewrite Forall_forall in *.
    split; [apply NE; auto|]. apply OK in S as (_ & _ & S). exact S.
  - rewrite (proj1 (stored_eq C V _ _ _ _ _ I)). rewrite <- (concat_query st win). reflexivity.
  - intros B f. rewrite (with_epoch_eq C _ _ _ _ _ _ I).
    destruct (einv_records C SF LW WM _ _ _ _ _ I) as [-> _]. reflexivity.
Qed.

Lemma plain_view : forall ops e rs, insert_only ops -> run_new qlt C ops = Ok (e, rs) ->
  (forall ls d, In ls (levels_of e) -> In d ls -> d <> []) /\
  Permutation (map wrec (stored e)) (inserted ops).
Proof.
  intros ops e rs IO H.
  destruct (run_facts qlt C V ops e rs (insert_only_appends C _ IO) (insert_only_ok qlt C V _ IO) H)
    as (st & win & pos & I & S & HH & _ & PO).
  specialize (PO (insert_only_blocks C V _ IO)). split.
  - apply (shards_nonempty C _ _ _ _ _ I). eapply Forall_impl; [|exact PO]. apply pos_nonempty.
  - destruct (hist_plain qlt C _ _ _ _ HH (insert_only_plain _ IO)) as (P & _).
    rewrite (Permutation_map wrec (proj1 (stored_eq C V _ _ _ _ _ I))).
    rewrite (inserted_log _ IO). apply (Permutation_map fst) in P. rewrite (map_map rt fst) in P. symmetry. exact P.
Qed.
End Hist.

(** ** Range sampling after insertions *)

Section Inserted.
Context {R : Type} {RO : RecOps R} {RL : RecLaws R} {KO : KeyOps R} {KL : KeyLaws R}.
Variable qlt : qorder R.
Context {QO : QOrder qlt}.
Variable C : cfg.
Hypothesis V : valid_cfg C.
Variables lbf ubf : list (wrapped R) -> Z -> res nat.
Hypothesis BE : bounds_exact lbf ubf.

Lemma sample_result {A} (e : ext R) (x : res A) (a : A) : (do y <- x; Ok (e, y)) = Ok (e, a) <-> x = Ok a.
Proof. destruct x; simpl; split; intros H; inversion H; auto. Qed.

Lemma in_stored l u ws ds r ops (e : ext R) : Permutation (ws ++ concat ds) (stored e) ->
  Permutation (map wrec (stored e)) (inserted ops) ->
  stored_in_range l u ws ds r <-> (key_in l u r = true /\ In r (inserted ops)).
Proof.
  intros P Q. unfold stored_in_range, key_in. rewrite andb_true_iff, !Z.leb_le. split.
  - intros (K & w & I & <-). split; auto. apply (Permutation_in _ Q). apply in_map. apply (Permutation_in _ P). auto.
  - intros (K & I). split; auto. apply (Permutation_in _ (Permutation_sym Q)) in I.
    apply in_map_iff in I as (w & <- & I). exists w. split; auto. apply (Permutation_in _ (Permutation_sym P)). auto.
Qed.

Theorem range_sample_sound : forall ops e rs rng alias fuel rej s l u, (l <= u)%Z -> insert_only ops ->
  run_new qlt C ops = Ok (e, rs) -> alias_contract alias ->
  match range_sample rng alias lbf ubf fuel rej s l u e with
  | Ok (e', out) => e' = e /\ length out <= s /\ forall r, In r out -> key_in l u r = true /\ In r (inserted ops)
  | Fail f => f = FFuel
  end.
Proof.
  intros ops e rs rng alias fuel rej s l u LU IO H AO.
  destruct (plain_view qlt C V _ _ _ IO H) as (NE & Q).
  destruct (sample_view qlt C V _ _ _ H NE) as (ws & ds & DO & P & E).
  unfold range_sample. rewrite (E _ (fun w d => irs_query rng alias lbf ubf fuel rej s l u w d)).
  pose proof (irs_sound rng alias AO _ _ BE l u LU ws ds DO rej fuel s) as S.
  destruct (irs_query rng alias lbf ubf fuel rej s l u ws ds) as [out|f]; simpl; auto.
  destruct S as (L & S). split; auto. split; auto. intros r I. apply (in_stored _ _ _ _ _ _ _ P Q). auto.
Qed.

Theorem range_sample_exact : forall ops e rs rng alias fuel s l u, insert_only ops ->
  run_new qlt C ops = Ok (e, rs) -> alias_contract alias -> 0 < fuel ->
  (exists r, In r (inserted ops) /\ key_in l u r = true) ->
  exists out, range_sample rng alias lbf ubf fuel false s l u e = Ok (e, out) /\ length out = s.
Proof.
  intros ops e rs rng alias fuel s l u IO H AO F (r & I & K).
  destruct (plain_view qlt C V _ _ _ IO H) as (NE & Q).
  destruct (sample_view qlt C V _ _ _ H NE) as (ws & ds & DO & P & E).
  unfold range_sample. rewrite (E _ (fun w d => irs_query rng alias lbf ubf fuel false s l u w d)).
  destruct (irs_exact rng alias AO _ _ BE l u ws ds DO false fuel s F (or_introl eq_refl)) as (out & Ho & L).
  { exists r. apply (in_stored _ _ _ _ _ _ _ P Q). auto. }
  exists out. rewrite Ho. auto.
Qed.

Lemma sampled_one p (e : ext R) (x : res (list R)) : sampled p (do y <- x; Ok (e, y)) = one_of p x.
Proof. destruct x; auto. Qed.

Lemma outcomes_ext X Y f g : (forall x y, f x y = g x y) -> outcomes X Y f = outcomes X Y g.
Proof. intros H. unfold outcomes. apply countb_ext. intros [x y] _. apply H. Qed.

Lemma countb_perm {A} (p : A -> bool) l m : Permutation l m -> countb p l = countb p m.
Proof. induction 1; simpl; auto; lia. Qed.

Theorem range_sample_uniform : forall ops e rs rej l u M, (l <= u)%Z -> insert_only ops ->
  run_new qlt C ops = Ok (e, rs) -> divisible M (length (inserted ops)) ->
  exists total, (rej = false -> total = countb (key_in l u) (inserted ops)) /\
    countb (key_in l u) (inserted ops) <= total <= length (inserted ops) /\
    forall p, outcomes total M (fun x y =>
      sampled p (range_sample (stream [x; y]) (exact_alias (stream [x; y])) lbf ubf 1 rej 1 l u e))
    = M * countb (fun r => key_in l u r && p r) (inserted ops).
Proof.
  intros ops e rs rej l u M LU IO H DV.
  destruct (plain_view qlt C V _ _ _ IO H) as (NE & Q).
  destruct (sample_view qlt C V _ _ _ H NE) as (ws & ds & DO & P & E).
  assert (PQ : Permutation (map wrec (ws ++ concat ds)) (inserted ops)) by (rewrite (Permutation_map wrec P); exact Q).
  assert (CE : forall p, countb (fun w => p (wrec w)) (ws ++ concat ds) = countb p (inserted ops)).
  { intros p. rewrite <- (countb_perm p _ _ PQ), countb_map. auto. }
  assert (LE : length (inserted ops) = length (ws ++ concat ds)).
  { rewrite <- (Permutation_length PQ), map_length. auto. }
  exists ((if rej then length ws else countb (in_range l u) ws) + countb (in_range l u) (concat ds)).
  pose proof (CE (key_in l u)) as CK. rewrite countb_app in CK.
  change (fun w => key_in l u (wrec w)) with (in_range l u) in CK.
  split; [intros ->; auto|]. split.
  - rewrite LE, app_length, <- CK. pose proof (countb_bound (in_range l u) ws).
    pose proof (countb_bound (in_range l u) (concat ds)). destruct rej; lia.
  - intros p. rewrite <- (CE (fun r => key_in l u r && p r)). rewrite LE in DV.
    pose proof (irs_uniform lbf ubf BE l u LU ws ds DO rej M p DV) as U. cbv zeta in U.
    change (fun w => key_in l u (wrec w) && p (wrec w)) with (fun w => in_range l u w && p (wrec w)).
    rewrite <- U. apply outcomes_ext. intros x y.
    unfold range_sample.
    rewrite (E _ (fun w d => irs_query (stream [x; y]) (exact_alias (stream [x; y])) lbf ubf 1 rej 1 l u w d)).
    apply sampled_one.
Qed.

Theorem range_sample_independent : forall ops e rs l u s xs, insert_only ops ->
  run_new qlt C ops = Ok (e, rs) -> (exists r, In r (inserted ops) /\ key_in l u r = true) -> length xs = s ->
  exists p : nat -> nat, (forall k, k < s -> p k < s) /\ (forall j k, j < s -> k < s -> p j = p k -> j = k) /\
    forall ys fuel, length ys = s -> 0 < fuel ->
    exists out, range_sample (stream (xs ++ ys)) (exact_alias (stream (xs ++ ys))) lbf ubf fuel false s l u e = Ok (e, out) /\
      length out = s /\
      forall k x y, nth_error xs k = Some x -> nth_error ys (p k) = Some y ->
      exists r, nth_error out (p k) = Some r /\
        range_sample (stream [x; y]) (exact_alias (stream [x; y])) lbf ubf 1 false 1 l u e = Ok (e, [r]).
Proof.
  intros ops e rs l u s xs IO H (r & I & K) L.
  assert (LU : (l <= u)%Z) by (apply andb_true_iff in K as (K1 & K2); apply Z.leb_le in K1, K2; lia).
  destruct (plain_view qlt C V _ _ _ IO H) as (NE & Q).
  destruct (sample_view qlt C V _ _ _ H NE) as (ws & ds & DO & P & E).
  destruct (irs_independent lbf ubf BE l u LU ws ds DO false s xs (or_introl eq_refl)) as (p & P1 & P2 & P3); auto.
  { exists r. apply (in_stored _ _ _ _ _ _ _ P Q). auto. }
  exists p. split; auto. split; auto. intros ys fuel Ly F. destruct (P3 ys fuel Ly F) as (out & O & LO & B).
  exists out. unfold range_sample.
  rewrite (E _ (fun w d => irs_query (stream (xs ++ ys)) (exact_alias (stream (xs ++ ys))) lbf ubf fuel false s l u w d)), O.
  split; auto. split; auto. intros k x y Hx Hy. destruct (B k x y Hx Hy) as (r' & N & O').
  exists r'. split; auto.
  rewrite (E _ (fun w d => irs_query (stream [x; y]) (exact_alias (stream [x; y])) lbf ubf 1 false 1 l u w d)), O'. auto.
Qed.
End Inserted.

(** ** Weighted sampling from shards *)

Section Weighted.
Context {R : Type} {RO : RecOps R}.
Variable rweight : R -> nat.
Variable grain : nat.
Let wsum (d : list (wrapped R)) := sum_list (weights_of rweight d).
Let dflt : wrapped R := W 0%N rzero.

Lemma wss_none ws : forall (ds : list (list (wrapped R))) n c, wss_shards rweight ws (repeat 0 n) c ds = Ok [].
Proof. induction ds as [|d ds IH]; intros [|n] c; simpl; auto. rewrite IH. auto. Qed.

Lemma wss_one ws : forall (ds : list (list (wrapped R))) j c d, nth_error ds j = Some d ->
  wss_shards rweight ws (set_nth j 1 (repeat 0 (length ds))) c ds = wss_local_query rweight ws 1 c d.
Proof.
  induction ds as [|d0 ds IH]; intros [|j] c d H; simpl in H; try discriminate.
  - inversion H; subst. cbn [length repeat set_nth wss_shards]. rewrite wss_none.
    destruct (wss_local_query rweight ws 1 c d); cbn [bind]; auto. rewrite app_nil_r. auto.
  - cbn [length repeat set_nth wss_shards]. change (wss_local_query rweight ws 0 c d0) with (Ok (@nil (wrapped R))).
    cbn [bind app]. rewrite Nat.add_0_r, (IH j c d H).
    destruct (wss_local_query rweight ws 1 c d); auto.
Qed.

Lemma weights_len (d : list (wrapped R)) : length (weights_of rweight d) = length d.
Proof. apply map_length. Qed.

Lemma wss_sample (ds : list (list (wrapped R))) x y : x < sum_list (map wsum ds) ->
  exists d w, nth_error ds (pick (map wsum ds) x) = Some d /\ 0 < wsum d /\
    nth_error d (pick (weights_of rweight d) (y mod wsum d)) = Some w /\
    wss_query (stream [x; y]) (exact_alias (stream [x; y])) rweight grain (exact_alias (stream [x; y])) 1 1 [] ds =
    if is_del w then Fail FFuel else Ok [wrec w].
Proof.
  intros X. destruct (pick_lt _ _ X) as (n & N & NP). set (j := pick (map wsum ds) x) in *.
  rewrite nth_error_map in N. destruct (nth_error ds j) as [d|] eqn:D; [|discriminate]. inversion N; subst n.
  assert (B : y mod wsum d < wsum d) by (apply Nat.mod_upper_bound; lia).
  destruct (pick_lt _ _ B) as (m & Mn & _). set (i := pick (weights_of rweight d) (y mod wsum d)) in *.
  assert (I : i < length d) by (rewrite <- weights_len; apply nth_error_Some; congruence).
  destruct (nth_error d i) as [w|] eqn:Wi; [|apply nth_error_None in Wi; lia].
  exists d, w. split; auto. split; auto. split; auto.
  assert (T : x mod sum_list (map wsum ds) = x) by (apply Nat.mod_small; auto).
  assert (J : j < length ds) by (apply nth_error_Some; congruence).
  unfold wss_query, wss_distribute. change (sum_list (weights_of rweight [])) with 0.
  change (fun d0 : list (wrapped R) => sum_list (weights_of rweight d0)) with wsum.
  assert (PE : exact_alias (stream [x; y]) (0 :: map wsum ds) 0 = S j).
  { unfold exact_alias. change (sum_list (0 :: map wsum ds)) with (sum_list (map wsum ds)).
    change (stream [x; y] 0) with x. rewrite T. cbn [pick]. rewrite Nat.sub_0_r. reflexivity. }
  cbn [spread length]. rewrite PE, map_length. cbn [repeat]. unfold nth_res. cbn [nth_error].
  rewrite (nth_repeat0 _ _ J). cbn [bind].
  cbn [set_nth wss_loop wss_round wss_buffer_query bind].
  change (1 + 2 * 0) with 1. rewrite (wss_one _ _ _ _ _ D). cbn [wss_local_query].
  unfold exact_alias at 1. change (stream [x; y] 1) with y. fold (wsum d). fold i. rewrite Wi. cbn [bind app].
  destruct (is_del w); cbn [bind length Nat.ltb Nat.leb]; auto.
  change (length (@nil (wrapped R))) with 0. change (0 <? 1) with true. cbv iota zeta. unfold wss_distribute.
  destruct (spread_count (stream [x; y]) (0 :: map wsum ds) ltac:(change (sum_list (map wsum ds) <> 0); lia)
    (1 - 0) (1 + 2 * sum_list (0 :: set_nth j 1 (repeat 0 (length ds)))) (0 :: set_nth j 1 (repeat 0 (length ds)))) as (z & Z & _).
  { cbn [length]. rewrite set_nth_len, repeat_length, map_length. auto. }
  rewrite Z. auto.
Qed.

Lemma sum_nth (d : list (wrapped R)) (g : wrapped R -> bool) :
  sum_list (map (fun i => nth i (weights_of rweight d) 0 * (if g (nth i d dflt) then 1 else 0)) (seq 0 (length d))) =
  weight_where rweight g d.
Proof.
  unfold weight_where. induction d as [|w d IH]; auto.
  cbn [length seq map]. rewrite (seq_shift_n 1), map_map. unfold sum_list in *. cbn [fold_right map nth weights_of].
  f_equal; [destruct (g w); lia|exact IH].
Qed.

Lemma countb_sum {A} (f : A -> bool) l : countb f l = sum_list (map (fun x => if f x then 1 else 0) l).
Proof. induction l; simpl; auto. Qed.

Theorem wss_proportional (ds : list (list (wrapped R))) M p : divisible M (wsum (concat ds)) ->
  outcomes (wsum (concat ds)) M (fun x y => one_of p
    (wss_query (stream [x; y]) (exact_alias (stream [x; y])) rweight grain (exact_alias (stream [x; y])) 1 1 [] ds))
  = M * weight_where rweight (fun w => negb (is_del w) && p (wrec w)) (concat ds).
Proof.
  set (g := fun w => negb (is_del w) && p (wrec w)). intros DV.
  assert (WC : wsum (concat ds) = sum_list (map wsum ds)).
  { clear. unfold wsum, weights_of. induction ds as [|d ds IH]; auto. cbn [concat map].
    rewrite map_app, sum_app, IH. reflexivity. }
  rewrite WC in *. rewrite outcomes_sum.
  transitivity (sum_list (map (fun x => (fun j => countb (fun y =>
    let d := nth j ds [] in g (nth (pick (weights_of rweight d) (y mod wsum d)) d dflt)) (seq 0 M))
      (pick (map wsum ds) x)) (seq 0 (sum_list (map wsum ds))))).
  { f_equal. apply map_ext_in. intros x X. apply in_seq in X. apply countb_ext. intros y _.
    destruct (wss_sample ds x y ltac:(lia)) as (d & w & D & _ & Wn & ->). cbv zeta.
    rewrite (nth_error_nth _ _ _ D), (nth_error_nth _ _ _ Wn). unfold g. destruct (is_del w); auto. }
  rewrite (pick_sum (map wsum ds) (fun j => countb (fun y =>
    let d := nth j ds [] in g (nth (pick (weights_of rweight d) (y mod wsum d)) d dflt)) (seq 0 M))), map_length.
  rewrite (map_ext_in _ (fun j => M * weight_where rweight g (nth j ds []))).
  - clear. unfold weight_where. induction ds as [|d ds IH]; [simpl; lia|]. cbn [length seq map concat nth].
    rewrite (seq_shift_n 1), map_map, map_app, sum_app, Nat.mul_add_distr_l, <- IH. reflexivity.
  - intros j J. apply in_seq in J. cbv zeta. set (d := nth j ds []).
    assert (E : nth j (map wsum ds) 0 = wsum d) by (change 0 with (wsum []); rewrite map_nth; auto).
    rewrite E. destruct (Nat.eq_dec (wsum d) 0) as [Z|NZ].
    + rewrite Z. replace (weight_where rweight g d) with 0; [lia|]. unfold weight_where, wsum, weights_of in *.
      clear -Z. induction d as [|w d IH]; auto. unfold sum_list in *. simpl in *. destruct (g w); lia.
    + destruct (DV (wsum d)) as (q & ->).
      { split; [lia|]. rewrite <- E. clear -J. revert j J. induction ds as [|t ds IH]; intros j J; simpl in *; [lia|].
        unfold sum_list in *. simpl. destruct j as [|j]; [lia|]. specialize (IH j). lia. }
      rewrite (countb_mod (wsum d) (fun y => g (nth (pick (weights_of rweight d) y) d dflt)) q) by lia.
      rewrite countb_sum. pose proof (pick_sum (weights_of rweight d) (fun i => if g (nth i d dflt) then 1 else 0)) as PS.
      rewrite weights_len, sum_nth in PS. fold (wsum d) in PS. rewrite PS. lia.
Qed.
End Weighted.
