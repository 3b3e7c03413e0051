(** Proofs about queries of a static structure. *)
From Coq Require Import List Arith ZArith NArith Lia Bool Permutation Sorted.
From Verif Require Import SampleModel SampleSpec SampleProofs DistProofs.
From Verif Require Import Base ListLemmas RecordModel RecordProofs BufferModel BufferProofs
  MergeModel MergeProofs StructModel ExtModel StructProofs StructTotal SortedProofs ExtProofs ContentProofs
  TagProofs ExecProofs LevelProofs CountProofs TagContent QueryModel Spec QueryProofs SerialProofs HeaderProofs WordProofs ISAMModel VPModel VPSpec VPProofs KNNProofs
  KindModel KindSpec KindProofs KindTag AloneModel AloneSpec.
Import ListNotations.

(** ** Contents of the static structure *)

Lemma live_inserts {R : Type} {RO : RecOps R} (ops : list (op R)) : insert_only ops -> live ops = inserted ops.
Proof.
  induction ops as [|o ops IH] using rev_ind; intros H; auto.
  rewrite live_app, inserted_app, IH by (intros x Hx; apply H, in_or_app; auto).
  destruct (H o) as [r ->]; [apply in_or_app; simpl; auto|]. reflexivity.
Qed.

Section Sorted.
Context {R : Type} {RO : RecOps R} {RL : RecLaws R}.
Variable qlt : qorder R.
Context {QO : QOrder qlt}.

#[global] Instance sorted_tags : TagLaws (R := R) qlt shard_ok plain.
Proof.
  constructor.
  - intros l s H A. rewrite built_sorted in H. pose proof (shard_of_plain _ _ H A) as P. split.
    + rewrite <- P. apply Forall_map, Forall_forall. intros x Hx. apply filter_In in Hx as [Hx _].
      rewrite Forall_forall in A. specialize (A _ Hx). unfold plain in *.
      pose proof (rt_mask3 x) as Q. unfold rt in Q. injection Q as Q. congruence.
    + rewrite <- (Permutation_map bare P), map_map.
      rewrite (map_ext (fun x => bare (mask3 x)) bare) by apply bare_mask3. auto.
  - intros ss s H O A. pose proof (sfs_plain qlt _ _ H A) as P. split.
    + rewrite <- P. apply Forall_forall. intros x Hx. apply filter_In in Hx as [Hx _]. rewrite Forall_forall in A. auto.
    + apply Permutation_map. auto.
  - intros s i w O H. apply tagged_at_ok; auto.
  - intros w H. unfold plain in *. rewrite is_ts_set_delete. auto.
  - auto.
Qed.

Variable C : cfg.
Hypothesis V : valid_cfg C.

Lemma static_contents ops e rs e' s : settled qlt C ops -> run_new qlt C ops = Ok (e, rs) ->
  create_static_structure qlt e = Ok (e', s) ->
  e' = e /\ shard_ok s /\ Permutation (map wrec (s_data s)) (live ops) /\
  Forall (fun w => is_ts w = false /\ is_del w = false) (s_data s).
Proof.
  intros [IO|(TG & D & BS)] H K.
  - destruct (static_plain qlt C V ops e rs IO H) as (s' & K' & P & S & F & L & T).
    rewrite K' in K. injection K as <- <-. rewrite live_inserts by auto. repeat split; auto.
    + rewrite L. rewrite <- (map_length wrec), (Permutation_length P).
      clear - IO. induction ops as [|o ops IH]; auto. destruct (IO o) as [r ->]; simpl; auto.
      rewrite IH; auto. intros x Hx. apply IO. simpl. auto.
    + rewrite T. symmetry. apply countb_false. intros w Hw. rewrite Forall_forall in F. apply F in Hw. tauto.
  - destruct (kind_static qlt C V TG ops e rs e' s) as (E & O & P & F); auto.
    + intros r p _. unfold plain. apply append_rec_ts.
    + split; auto. split; auto. split; auto. symmetry. auto.
Qed.
End Sorted.

(** ** Queries of an array *)

Section Array.
Context {R : Type} {RO : RecOps R} {RL : RecLaws R} {KO : KeyOps R} {KL : KeyLaws R}.
Variable s : shard R.
Variable X : list R.
Hypothesis O : shard_ok s.
Hypothesis P : Permutation (map wrec (s_data s)) X.
Hypothesis F : Forall (fun w => is_ts w = false /\ is_del w = false) (s_data s).
Hypothesis NX : X <> [].
Variables l u : Z.

Lemma array_nonempty : s_data s <> [].
Proof. intros E. rewrite E in P. apply Permutation_nil in P. auto. Qed.

Lemma map_wrec_filter (p : R -> bool) : forall ws : list (wrapped R),
  map wrec (filter (fun w => p (wrec w)) ws) = filter p (map wrec ws).
Proof. induction ws as [|w ws IH]; simpl; auto. destruct (p (wrec w)); simpl; rewrite IH; auto. Qed.

Lemma array_range : Permutation (map wrec (filter (inr l u) (s_data s))) (filter (key_in l u) X).
Proof. unfold inr. rewrite map_wrec_filter, <- (Permutation_filter _ _ _ P). reflexivity. Qed.

Lemma sorted_filter (p : wrapped R -> bool) : forall ws : list (wrapped R), sorted ws -> sorted (filter p ws).
Proof.
  induction 1 as [|w ws S IH F']; simpl; [constructor|]. destruct (p w); auto. constructor; auto.
  rewrite Forall_forall in *. intros x Hx. apply filter_In in Hx as [Hx _]. auto.
Qed.

Lemma array_rq lbf : lb_sound lbf ->
  exists ws, alone_rq lbf l u s = Ok ws /\ sorted ws /\ Permutation (map wrec ws) (filter (key_in l u) X) /\
    Forall (fun w => is_ts w = false /\ is_del w = false) ws.
Proof.
  intros LB. exists (filter (inr l u) (s_data s)). split; [apply rq_local_ok; auto; apply array_nonempty|].
  split; [apply sorted_filter, O|]. split; [apply array_range|].
  rewrite Forall_forall in *. intros x Hx. apply filter_In in Hx as [Hx _]. auto.
Qed.

Lemma rc_plain : forall ws : list (wrapped R), Forall (fun w => is_ts w = false /\ is_del w = false) ws ->
  rc_count ws = (length ws, 0).
Proof.
  intros ws G. unfold rc_count. f_equal.
  - rewrite <- (countb_true (fun w => negb (is_del w)) ws); auto. intros w Hw. rewrite Forall_forall in G.
    apply G in Hw as [_ ->]. auto.
  - apply countb_false. intros w Hw. rewrite Forall_forall in G. apply G in Hw as [-> _]. apply andb_false_r.
Qed.

Lemma array_rc lbf : lb_sound lbf ->
  let n := length (filter (key_in l u) X) in
  alone_rc lbf l u s = Ok [(n, 0)] \/ (alone_rc lbf l u s = Ok [] /\ n = 0).
Proof.
  intros LB n. destruct (slice_ok lbf LB l u s O array_nonempty) as (o & E & Q & _).
  pose proof (Permutation_length array_range) as L. rewrite map_length in L. fold n in L.
  unfold alone_rc, rc_local. rewrite E. cbn [bind]. destruct o as [x|]; [left|right].
  - subst x. rewrite rc_plain.
    + rewrite L. auto.
    + rewrite Forall_forall in *. intros x Hx. apply filter_In in Hx as [Hx _]. auto.
  - rewrite <- Q in L. auto.
Qed.

Lemma array_pl hit plf : pl_sound hit plf ->
  exists ws, alone_pl plf s = Ok ws /\
    match ws with
    | [] => forall r, In r X -> hit r = false
    | [w] => In (wrec w) X /\ hit (wrec w) = true
    | _ => False
    end.
Proof.
  intros PL. specialize (PL (s_data s) array_nonempty (proj2 (proj2 O))).
  unfold alone_pl, pl_local. destruct (plf (s_data s)) as [[w|]|]; [| |contradiction]; cbn [bind].
  - exists [w]. split; auto. destruct PL as [I H]. split; auto. apply (Permutation_in _ P). apply in_map. auto.
  - exists []. split; auto. intros r Hr. apply (Permutation_in _ (Permutation_sym P)) in Hr.
    apply in_map_iff in Hr as (w & <- & Hw). auto.
Qed.

Lemma array_irs rng lbf ubf n : bounds_exact lbf ubf -> (exists r, In r X /\ key_in l u r = true) ->
  exists Y ws, Permutation Y (filter (key_in l u) X) /\ alone_irs rng lbf ubf n l u s = Ok ws /\
    map wrec ws = map (fun k => nth (rng k mod length Y) Y rzero) (seq 0 n).
Proof.
  intros BE (r & I & K). assert (LU : (l <= u)%Z).
  { apply andb_true_iff in K as (K1 & K2). apply Z.leb_le in K1, K2. lia. }
  assert (SO : SampleProofs.shard_ok (s_data s)) by (split; [apply array_nonempty|apply O]).
  unfold alone_irs. rewrite (preproc_ok lbf ubf BE l u LU (s_data s) SO). cbn [bind].
  exists (map wrec (seg l u (s_data s))).
  assert (PY : Permutation (map wrec (seg l u (s_data s))) (filter (key_in l u) X)) by apply array_range.
  assert (LS : length (seg l u (s_data s)) <> 0).
  { rewrite <- (map_length wrec), (Permutation_length PY). intros Q. apply length_zero_iff_nil in Q.
    assert (J : In r (filter (key_in l u) X)) by (apply filter_In; auto). rewrite Q in J. contradiction. }
  rewrite (local_raw l u rng (s_data s) n 0 SO) by tauto.
  eexists. split; auto. split; [reflexivity|]. rewrite map_map. apply map_ext_in. intros k _.
  rewrite map_length. change rzero with (wrec (dflt (R := R))). rewrite map_nth. auto.
Qed.

Lemma wss_draws rweight wsample : alias_contract wsample -> sum_list (weights_of rweight (s_data s)) <> 0 ->
  forall n c, exists ws, wss_local_query rweight wsample n c (s_data s) = Ok ws /\ length ws = n /\
    forall w, In w ws -> In w (s_data s) /\ 0 < rweight (wrec w).
Proof.
  intros WO T. induction n as [|n IH]; intros c; cbn [wss_local_query].
  - exists []. simpl. intuition.
  - destruct (WO (weights_of rweight (s_data s)) c T) as (m & M & MP).
    unfold weights_of in M at 1. rewrite nth_error_map in M.
    destruct (nth_error (s_data s) (wsample (weights_of rweight (s_data s)) c)) as [w|] eqn:E; [|discriminate].
    injection M as M. apply nth_error_In in E. pose proof F as F'. rewrite Forall_forall in F'.
    destruct (IH (S c)) as (ws & -> & L & G). cbn [bind]. rewrite (proj2 (F' w E)).
    exists (w :: ws). split; auto. split; [simpl; auto|]. intros x [<-|Hx]; auto. split; auto. lia.
Qed.

Lemma array_wss rweight wsample n : alias_contract wsample -> (exists r, In r X /\ 0 < rweight r) ->
  exists ws, alone_wss rweight wsample n s = Ok ws /\ length ws = n /\
    forall w, In w ws -> In (wrec w) X /\ 0 < rweight (wrec w).
Proof.
  intros WO (r & I & K). apply (Permutation_in _ (Permutation_sym P)) in I as J.
  apply in_map_iff in J as (w & <- & J).
  destruct (wss_draws rweight wsample WO) with (n := n) (c := 0) as (ws & E & L & G).
  - intros Q. assert (rweight (wrec w) = 0); [|lia]. eapply sum_zero_in; [exact Q|].
    apply in_map_iff. exists w. auto.
  - exists ws. split; auto. split; auto. intros x Hx. destruct (G x Hx) as [A B]. split; auto.
    apply (Permutation_in _ P). apply in_map. auto.
Qed.
End Array.

(** ** Nearest neighbours *)

Section Near.
Context {R : Type} {RO : RecOps R} {RL : RecLaws R} {D : Type} {DO : DistOps D} {DL : DistLaws D}
  {MO : MetricOps R D} {ML : MetricLaws R D}.

Lemma vp_static_contents C ops (e : ext R) rs e' s : valid_cfg C -> settled vp_shards C ops ->
  run_new vp_shards C ops = Ok (e, rs) -> create_static_structure vp_shards e = Ok (e', s) ->
  e' = e /\ Permutation (map wrec (s_data s)) (live ops).
Proof.
  intros V [IO|(TG & DI & BS)] H K.
  - destruct (vp_static C V ops e rs (or_intror IO) H) as (s' & K' & _ & P).
    rewrite K' in K. injection K as <- <-. split; auto. rewrite live_inserts by auto.
    apply (Permutation_map fst) in P. rewrite !map_map in P. simpl in P. rewrite <- P.
    clear - IO. induction ops as [|o ops IH]; auto. destruct (IO o) as [r ->]; simpl; auto.
    apply perm_skip, IH. intros x Hx. apply IO. simpl. auto.
  - destruct (vp_tag_static C V TG ops e rs BS DI H) as (s' & K' & _ & P & _).
    rewrite K' in K. injection K as <- <-. split; auto. symmetry. auto.
Qed.

Lemma vp_alone C ops (e : ext R) rs e' s pop leafsz rng p k : PQMax pop -> valid_cfg C -> settled vp_shards C ops ->
  run_new vp_shards C ops = Ok (e, rs) -> create_static_structure vp_shards e = Ok (e', s) -> 0 < k ->
  exists out, alone_knn leafsz pop rng p k s = Ok out /\
    nearest (fun x y => dleb (dist p x) (dist p y)) k (live ops) (map wrec out).
Proof.
  intros PM V ST H K KP. destruct (vp_static_contents C ops e rs e' s V ST H K) as [_ P].
  destruct (vp_build_keeps leafsz rng (s_data s)) as (t & B & _).
  destruct (vp_search_exact pop PM leafsz rng (s_data s) t p k KP B) as (q & Q & N).
  exists q. unfold alone_knn. rewrite B. cbn [bind]. split; auto.
  eapply nearest_perm; [exact P|]. eapply nearest_map; [|exact N]. auto.
Qed.
End Near.

(** ** After a history *)

Section After.
Context {R : Type} {RO : RecOps R} {RL : RecLaws R} {KO : KeyOps R} {KL : KeyLaws R}.
Variable qlt : qorder R.
Context {QO : QOrder qlt}.
Variable C : cfg.
Hypothesis V : valid_cfg C.
Variables (ops : list (op R)) (e e' : ext R) (rs : list nat) (s : shard R).
Hypothesis ST : settled qlt C ops.
Hypothesis RN : run_new qlt C ops = Ok (e, rs).
Hypothesis SS : create_static_structure qlt e = Ok (e', s).
Hypothesis NX : live ops <> [].

Lemma after_rq lbf l u : lb_sound lbf ->
  exists ws, alone_rq lbf l u s = Ok ws /\ sorted ws /\ Permutation (map wrec ws) (filter (key_in l u) (live ops)) /\
    Forall (fun w => is_ts w = false /\ is_del w = false) ws.
Proof. destruct (static_contents qlt C V ops e rs e' s ST RN SS) as (_ & O & P & F). eapply array_rq; eauto. Qed.

Lemma after_rc lbf l u : lb_sound lbf ->
  let n := length (filter (key_in l u) (live ops)) in
  alone_rc lbf l u s = Ok [(n, 0)] \/ (alone_rc lbf l u s = Ok [] /\ n = 0).
Proof. destruct (static_contents qlt C V ops e rs e' s ST RN SS) as (_ & O & P & F). eapply array_rc; eauto. Qed.

Lemma after_pl hit plf : pl_sound hit plf ->
  exists ws, alone_pl plf s = Ok ws /\
    match ws with
    | [] => forall r, In r (live ops) -> hit r = false
    | [w] => In (wrec w) (live ops) /\ hit (wrec w) = true
    | _ => False
    end.
Proof. destruct (static_contents qlt C V ops e rs e' s ST RN SS) as (_ & O & P & F). eapply array_pl; eauto. Qed.

Lemma after_irs rng lbf ubf n l u : bounds_exact lbf ubf -> (exists r, In r (live ops) /\ key_in l u r = true) ->
  exists Y ws, Permutation Y (filter (key_in l u) (live ops)) /\ alone_irs rng lbf ubf n l u s = Ok ws /\
    map wrec ws = map (fun k => nth (rng k mod length Y) Y rzero) (seq 0 n).
Proof. destruct (static_contents qlt C V ops e rs e' s ST RN SS) as (_ & O & P & F). eapply array_irs; eauto. Qed.

Lemma after_wss rweight wsample n : alias_contract wsample -> (exists r, In r (live ops) /\ 0 < rweight r) ->
  exists ws, alone_wss rweight wsample n s = Ok ws /\ length ws = n /\
    forall w, In w ws -> In (wrec w) (live ops) /\ 0 < rweight (wrec w).
Proof. destruct (static_contents qlt C V ops e rs e' s ST RN SS) as (_ & O & P & F). eapply array_wss; eauto. Qed.
End After.

Lemma after_same {R : Type} {RO : RecOps R} {RL : RecLaws R} {KO : KeyOps R} {KL : KeyLaws R}
  (qlt : qorder R) {QO : QOrder qlt} C (V : valid_cfg C) lbf (ops : list (op R)) e rs l u : lb_sound lbf -> insert_only ops ->
  ops <> [] -> run_new qlt C ops = Ok (e, rs) ->
  exists s out ws, create_static_structure qlt e = Ok (e, s) /\ range_query qlt lbf e l u = Ok (e, out) /\
    alone_rq lbf l u s = Ok ws /\ Permutation out (map wrec ws).
Proof.
  intros LB IO NE H. destruct (static_plain qlt C V ops e rs IO H) as (s & K & _).
  destruct (range_query_exact qlt C V lbf LB ops e rs l u IO H) as (out & Q & P).
  destruct (after_rq qlt C V ops e e rs s (or_introl IO) H K) with (lbf := lbf) (l := l) (u := u) as (ws & A & _ & W & _); auto.
  - rewrite live_inserts by auto. destruct ops as [|o ops]; [congruence|]. destruct (IO o) as [r ->]; simpl; auto. discriminate.
  - exists s, out, ws. split; auto. split; auto. split; auto. rewrite P, W, live_inserts; auto.
Qed.
