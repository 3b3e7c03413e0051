(** Proofs about clients that insert until they are accepted. *)
From Coq Require Import List Arith ZArith NArith Lia Bool Permutation.
From Verif Require Import Base ListLemmas RecordModel RecordProofs BufferModel BufConcModel BufConcProofs SysModel SysInv SysOrigin SysTrace
  ScaleModel.
Import ListNotations.

Section SP.
Context {R : Type} {RO : RecOps R}.
Variables lwm hwm cap : nat.
Notation cexec := (cexec hwm cap).
Notation sexec := (sexec lwm hwm cap).
Notation run := (run lwm hwm cap).
Notation kexec := (kexec lwm hwm cap).
Notation bpcs s := (cs_pcs (y_buf s)).
Notation done s := (cs_done (y_buf s)).
Implicit Types (s : sys R) (p : spc R) (bp : pc R) (b : cstate R) (k : clients R).

(** The request that a thread carries to the buffer, and that is inside the buffer. *)
Definition carry p : option (R * bool) :=
  match p with
  | SGet _ (ForNew r ts) | SEnd _ _ (ToNew r ts) => Some (r, ts)
  | ILow r ts | ILowH r ts _ | ILowT r ts _ | IFlag r ts | IApp r ts | NNull r ts | NClone _ r ts | NStore _ _ r ts
  | NLoad r ts | NTask _ r ts => Some (r, ts)
  | _ => None
  end.
Definition inside bp : option (R * bool) :=
  match bp with
  | ALoad r ts | AHead r ts _ | ACas r ts _ | ARetry r ts _ | AWrite r ts _ | AStamp r ts _ | AVis r ts _ => Some (r, ts)
  | _ => None
  end.
Definition in_app p : bool := match p with IAppW => true | _ => false end.

(** What holds of a thread with the next request [q]. *)
Definition thread_ok (q : option (R * bool)) p bp : Prop :=
  if in_app p then forall x, inside bp = Some x -> q = Some x
  else inside bp = None /\ forall x, carry p = Some x -> q = Some x.

(** ** Steps of the buffer *)

Lemma step_inside : forall b t b' bp, cexec b (Step t) = Some b' -> nth_error (cs_pcs b) t = Some bp ->
  exists bp', cs_pcs b' = set_nth t bp' (cs_pcs b) /\ nth_error (cs_pcs b') t = Some bp' /\
    (forall x, inside bp' = Some x -> inside bp = Some x) /\
    cs_done b' = match bp with AVis r ts q => (q, (r, ts)) :: cs_done b | _ => cs_done b end /\
    (match bp with AVis _ _ _ => bp' = Idle | _ => True end).
Proof.
  intros b t b' bp E N. cbn [BufConcModel.cexec] in E. rewrite N in E.
  destruct (exec hwm cap (cs_buf b) bp) as [[c' bp']|] eqn:X; [|discriminate]. inversion E; subst. cbn.
  exists bp'. split; auto. split; [eapply nth_set_same; eauto|].
  destruct bp; cbn [exec] in X; try discriminate;
    repeat match type of X with context [if ?c then _ else _] => destruct c end;
    inversion X; subst; cbn; auto; repeat split; try discriminate; auto.
Qed.

Lemma call_inside : forall b t c b', cexec b (Call t c) = Some b' ->
  exists bp bp', nth_error (cs_pcs b) t = Some bp /\ cs_pcs b' = set_nth t bp' (cs_pcs b) /\ cs_done b' = cs_done b /\
    inside bp' = match c with Append r ts => Some (r, ts) | _ => None end.
Proof.
  intros b t c b' E. cbn [BufConcModel.cexec] in E. destruct (nth_error (cs_pcs b) t) as [bp|]; [|discriminate].
  destruct (begin c bp) as [bp'|] eqn:G; [|discriminate]. inversion E; subst. exists bp, bp'. cbn.
  repeat split; auto. destruct c, bp; inversion G; subst; reflexivity.
Qed.

Lemma adv_same : forall b a b', cexec b a = Some b' -> (a = AdvStep \/ exists n, a = Advance n) ->
  cs_pcs b' = cs_pcs b /\ cs_done b' = cs_done b.
Proof.
  intros b a b' E [->|(n & ->)]; cbn [BufConcModel.cexec] in E.
  - destruct (vexec (cs_buf b) (cs_adv b)) as [[c' v']|]; inversion E; subst; auto.
  - destruct (cs_adv b); inversion E; subst; auto.
Qed.

(** ** Steps of the threads *)

(** A step of thread [t] that leaves the other threads, what is done, and [t] with no
    other request. *)
Definition quiet s s' (t : nat) : Prop :=
  done s' = done s /\
  (forall u, u <> t -> nth_error (bpcs s') u = nth_error (bpcs s) u /\
     exists f, (f = wake \/ f = fun p => p) /\ nth_error (y_pcs s') u = option_map f (nth_error (y_pcs s) u)) /\
  forall q, (forall p bp, nth_error (y_pcs s) t = Some p -> nth_error (bpcs s) t = Some bp -> thread_ok q p bp) ->
    forall p' bp', nth_error (y_pcs s') t = Some p' -> nth_error (bpcs s') t = Some bp' -> thread_ok q p' bp'.

Lemma quiet_go : forall s s' t p p', nth_error (y_pcs s) t = Some p -> in_app p = false -> in_app p' = false ->
  (forall x, carry p' = Some x -> carry p = Some x) -> y_pcs s' = set_nth t p' (y_pcs s) ->
  bpcs s' = bpcs s -> done s' = done s -> quiet s s' t.
Proof.
  intros s s' t p p' N A A' C E B D. split; auto. split.
  - intros u U. rewrite B, E, nth_set_other by auto. split; auto. exists (fun p => p). split; auto.
    destruct (nth_error (y_pcs s) u); auto.
  - intros q H p1 bp1 N1 B1. rewrite E, (nth_set_same _ _ _ _ N) in N1. inversion N1; subst. rewrite B in B1.
    specialize (H _ _ N B1). unfold thread_ok in *. rewrite A in H. rewrite A'. destruct H. split; auto.
Qed.

Lemma quiet_same : forall s s' t, y_pcs s' = y_pcs s -> bpcs s' = bpcs s -> done s' = done s -> quiet s s' t.
Proof.
  intros s s' t E B D. split; auto. split.
  - intros u U. rewrite B, E. split; auto. exists (fun p => p). split; auto. destruct (nth_error (y_pcs s) u); auto.
  - intros q H p1 bp1 N1 B1. rewrite E in N1. rewrite B in B1. eauto.
Qed.

Lemma quiet_call : forall s t c p p' s', bcall hwm cap s t c p' = Some s' -> nth_error (y_pcs s) t = Some p -> in_app p = false ->
  (match c with Append r ts => carry p = Some (r, ts) /\ p' = IAppW | _ => carry p' = None /\ in_app p' = false end) ->
  quiet s s' t.
Proof.
  intros s t c p p' s' E N A C. unfold bcall in E. destruct (cexec (y_buf s) (Call t c)) as [b|] eqn:X; [|discriminate].
  inversion E; subst. apply call_inside in X as (bp & bp' & NB & PB & D & I). split; [exact D|]. split.
  - intros u U. cbn. rewrite PB, !nth_set_other by auto. split; auto. exists (fun p => p). split; auto.
    destruct (nth_error (y_pcs s) u); auto.
  - intros q H p1 bp1 N1 B1. cbn in N1, B1. rewrite (nth_set_same _ _ _ _ N) in N1. rewrite PB, (nth_set_same _ _ _ _ NB) in B1.
    inversion N1; inversion B1; subst. specialize (H _ _ N NB). unfold thread_ok in *. rewrite A in H. destruct H as [H1 H2].
    destruct c as [r ts|tt| |]; destruct C as [C1 C2].
    + subst p1. cbn. intros x X1. rewrite I in X1. inversion X1; subst. auto.
    + rewrite C2. split; auto. rewrite C1. discriminate.
    + rewrite C2. split; auto. rewrite C1. discriminate.
    + rewrite C2. split; auto. rewrite C1. discriminate.
Qed.

(** A step inside the buffer of a thread that does not append. *)
Lemma quiet_step : forall s t f p s', bstep hwm cap s t f = Some s' -> nth_error (y_pcs s) t = Some p -> in_app p = false ->
  carry p = None -> (forall bp q, f bp = Some q -> carry q = None /\ in_app q = false) ->
  (forall bp, nth_error (bpcs s) t = Some bp -> inside bp = None) ->
  quiet s s' t.
Proof.
  intros s t f p s' E N A C F IN. unfold bstep in E. destruct (cexec (y_buf s) (Step t)) as [b|] eqn:X; [|discriminate].
  destruct (nth_error (bpcs s) t) as [bp|] eqn:NB; [|cbn in X; rewrite NB in X; discriminate].
  specialize (IN _ eq_refl).
  destruct (step_inside _ _ _ _ X NB) as (bp' & PB & NB' & I & D & V). rewrite NB' in E.
  assert (D' : cs_done b = done s) by (rewrite D; destruct bp; auto; discriminate).
  assert (I' : inside bp' = None).
  { destruct (inside bp') as [x|] eqn:Q; auto. rewrite (I _ eq_refl) in IN. discriminate. }
  assert (exists p', in_app p' = false /\ carry p' = None /\ y_pcs s' = set_nth t p' (y_pcs s) /\ y_buf s' = b) as (p' & P1 & P2 & P3 & P4).
  { destruct (f bp') as [q|] eqn:FB; inversion E; subst; cbn.
    - destruct (F _ _ FB). exists q. auto.
    - exists p. rewrite set_nth_id by auto. auto. }
  split; [rewrite P4; auto|]. split.
  - intros u U. rewrite P3, P4, PB, !nth_set_other by auto. split; auto. exists (fun p => p). split; auto.
    destruct (nth_error (y_pcs s) u); auto.
  - intros q H p1 bp1 N1 B1. rewrite P3, (nth_set_same _ _ _ _ N) in N1. rewrite P4, NB' in B1. inversion N1; inversion B1; subst.
    unfold thread_ok. rewrite P1, P2. split; auto. discriminate.
Qed.

(** Steps that do not touch the buffer. *)
Ltac quiet_tac N :=
  lazymatch goal with
  | |- quiet _ (go _ _ ?q) _ => apply (quiet_go _ _ _ _ q N); cbn; try reflexivity; try assumption; intros; congruence
  | |- _ => eapply quiet_same; cbn; try reflexivity; assumption
  end.

Lemma run_quiet : forall s t p s', nth_error (y_pcs s) t = Some p -> run s t p = Some s' -> in_app p = false ->
  (forall bp, nth_error (bpcs s) t = Some bp -> inside bp = None) -> quiet s s' t.
Proof.
  intros s t p s' N E A IN.
  destruct p; try discriminate A; cbn [SysModel.run] in E; try discriminate E;
    try (eapply quiet_call; eauto; cbn; auto; fail);
    try (eapply quiet_step; eauto; cbn; auto; intros bp q F; destruct bp; inversion F; subst; auto; fail).
  1: destruct w as [kd se|r ts]; [destruct kd|].
  6: destruct f.
  all: unfold get_step, end_step, deref in E.
  all: repeat match type of E with
       | bcall _ _ _ _ _ _ = _ => eapply quiet_call; [exact E|exact N|reflexivity|cbn; auto]
       | context [cexec ?b ?a] => let X := fresh in destruct (cexec b a) eqn:X; [apply adv_same in X as [? ?]; [|eauto]|discriminate E]
       | context [match ?c with _ => _ end] => destruct c eqn:?; try discriminate E
       end.
  all: try (inversion E; subst; clear E).
  all: try (quiet_tac N).
  split; [reflexivity|]. split.
  - intros u U. cbn. split; auto. exists wake. split; auto. rewrite nth_error_map, nth_set_other; auto.
  - intros q H p1 bp1 N1 B1. cbn in N1, B1. rewrite nth_error_map, (nth_set_same _ _ _ _ N) in N1. inversion N1; subst.
    specialize (H _ _ N B1). destruct H. split; auto.
Qed.

(** The last step of an insert that returns 1, and the other steps inside the buffer. *)
Lemma app_step : forall s t s', nth_error (y_pcs s) t = Some IAppW -> run s t IAppW = Some s' ->
  exists bp bp' p', nth_error (bpcs s) t = Some bp /\ bpcs s' = set_nth t bp' (bpcs s) /\ y_pcs s' = set_nth t p' (y_pcs s) /\
    (forall x, inside bp' = Some x -> inside bp = Some x) /\ (p' = SIdle /\ bp' = Idle \/ p' = IAppW) /\
    (if returns_one s t then exists r ts i, bp = AVis r ts i /\ done s' = (i, (r, ts)) :: done s /\ p' = SIdle
     else done s' = done s).
Proof.
  intros s t s' N E. cbn [SysModel.run] in E. unfold bstep in E.
  destruct (cexec (y_buf s) (Step t)) as [b|] eqn:X; [|discriminate].
  destruct (nth_error (bpcs s) t) as [bp|] eqn:NB; [|cbn in X; rewrite NB in X; discriminate].
  destruct (step_inside _ _ _ _ X NB) as (bp' & PB & NB' & I & D & V). rewrite NB' in E.
  exists bp, bp', (match bp' with Idle => SIdle | _ => IAppW end).
  unfold returns_one. rewrite N, NB.
  split; auto. assert (y_buf s' = b /\ y_pcs s' = set_nth t (match bp' with Idle => SIdle | _ => IAppW end) (y_pcs s)) as [E1 E2].
  { destruct bp'; inversion E; subst; cbn; auto; rewrite (set_nth_id _ _ _ N); auto. }
  rewrite E1. split; auto. split; auto. split; auto. split; [destruct bp'; auto|].
  destruct bp; auto. subst bp'. exists r, ts, p. auto.
Qed.

(** ** The clients *)

Definition request (left : list (list (R * bool))) (t : nat) : option (R * bool) :=
  match nth_error left t with Some l => hd_error l | None => None end.

Record kinv (progs : list (list (R * bool))) k : Prop := {
  ki_thr : forall t p bp, nth_error (y_pcs (k_sys k)) t = Some p -> nth_error (bpcs (k_sys k)) t = Some bp ->
             thread_ok (request (k_left k) t) p bp;
  ki_all : Permutation (map snd (done (k_sys k)) ++ concat (k_left k)) (concat progs)
}.

Lemma wake_ok : forall q p bp, thread_ok q p bp -> thread_ok q (wake p) bp.
Proof. intros q [] bp H; cbn; auto. Qed.

Lemma quiet_inv : forall progs s s' left t, quiet s s' t -> kinv progs (CL s left) -> kinv progs (CL s' left).
Proof.
  intros progs s s' left t (D & O & T) [K2 K3]. cbn [k_sys k_left] in *. constructor; cbn [k_sys k_left].
  - intros u p bp P B. destruct (Nat.eq_dec u t) as [->|NE].
    + eapply T; eauto.
    + destruct (O _ NE) as (O1 & f & F & O2). rewrite O1 in B. rewrite O2 in P.
      destruct (nth_error (y_pcs s) u) as [p0|] eqn:P0; [|discriminate]. inversion P; subst.
      specialize (K2 _ _ _ P0 B). destruct F as [->| ->]; auto. apply wake_ok. auto.
  - rewrite D. auto.
Qed.

Lemma concat_drop : forall (left : list (list (R * bool))) t x, request left t = Some x ->
  Permutation (concat left) (x :: concat (drop_first t left)).
Proof.
  unfold request, drop_first. induction left as [|a left IH]; intros [|t] x N; cbn in *; try discriminate.
  - destruct a; inversion N; subst. reflexivity.
  - specialize (IH t x N). destruct (nth_error left t); [|discriminate]. cbn. rewrite IH. apply Permutation_sym, Permutation_middle.
Qed.

Lemma request_other : forall left t u, u <> t -> request (drop_first t left) u = request left u.
Proof.
  intros left t u NE. unfold request, drop_first. destruct (nth_error left t); auto. rewrite nth_set_other; auto.
Qed.

Lemma start_inv : forall progs, kinv progs (k_init hwm cap progs).
Proof.
  intros progs. constructor; cbn [k_init k_sys k_left].
  - intros t p bp P B. unfold sys_init, cs_init in *. cbn in P, B. apply nth_error_In, repeat_spec in P.
    apply nth_error_In, repeat_spec in B. subst. cbn. split; auto. discriminate.
  - cbn. apply Permutation_refl.
Qed.

Lemma app_inv : forall progs s s' left t, kinv progs (CL s left) -> nth_error (y_pcs s) t = Some IAppW ->
  run s t IAppW = Some s' -> kinv progs (CL s' (if returns_one s t then drop_first t left else left)).
Proof.
  intros progs s s' left t [K1 K2] N E. cbn [k_sys k_left] in *.
  destruct (app_step _ _ _ N E) as (bp & bp' & p' & NB & EB & EP & I & S & D).
  pose proof (K1 _ _ _ N NB) as T. cbn in T. unfold thread_ok in T. cbn in T.
  assert (OTH : forall u, u <> t -> nth_error (y_pcs s') u = nth_error (y_pcs s) u /\ nth_error (bpcs s') u = nth_error (bpcs s) u).
  { intros u NE. rewrite EB, EP, !nth_set_other; auto. }
  assert (THIS : nth_error (y_pcs s') t = Some p' /\ nth_error (bpcs s') t = Some bp').
  { rewrite EB, EP. split; eapply nth_set_same; eauto. }
  constructor; cbn [k_sys k_left].
  - intros u p0 bp0 P0 B0. destruct (Nat.eq_dec u t) as [->|NE].
    + destruct THIS as [TH1 TH2]. rewrite TH1 in P0. rewrite TH2 in B0. inversion P0; inversion B0; subst.
      destruct (returns_one s t).
      * destruct D as (r & ts & i & -> & _ & ->). destruct S as [(_ & ->)|H]; [|discriminate]. cbn. split; auto. discriminate.
      * destruct S as [(-> & ->)| ->]; cbn; [split; auto; discriminate|]. intros x X. auto.
    + destruct (OTH _ NE) as [H1 H2]. rewrite H1 in P0. rewrite H2 in B0. specialize (K1 _ _ _ P0 B0).
      destruct (returns_one s t); auto. rewrite request_other; auto.
  - destruct (returns_one s t); [|rewrite D; auto].
    destruct D as (r & ts & i & -> & D & ->). rewrite D. specialize (T (r, ts) eq_refl).
    rewrite <- K2. cbn [map snd app]. rewrite (concat_drop _ _ _ T). apply Permutation_middle.
Qed.

Lemma step_inv : forall progs k a k', kinv progs k -> kexec k a = Some k' -> kinv progs k'.
Proof.
  intros progs [s left] a k' K E. destruct a as [t|x]; cbn [ScaleModel.kexec k_sys k_left] in E.
  - destruct (nth_error left t) as [[|[r ts] l]|] eqn:L; try discriminate.
    unfold SysModel.sexec in E. destruct (y_stop s); [discriminate|].
    destruct (nth_error (y_pcs s) t) as [p|] eqn:N; [|discriminate]. destruct p; try discriminate.
    inversion E; subst. destruct K as [K1 K2]. constructor; cbn [k_sys k_left] in *; auto.
    cbn. intros u p bp P B. destruct (Nat.eq_dec u t) as [->|NE].
    + rewrite (nth_set_same _ _ _ _ N) in P. inversion P; subst. specialize (K1 _ _ _ N B). destruct K1 as [K1 _].
      cbn. split; auto. unfold request. rewrite L. auto.
    + rewrite nth_set_other in P by auto. auto.
  - assert (X : exists s', sexec s x = Some s' /\ (forall t r ts, x <> UCall t (UInsert r ts)) /\
        k' = CL s' (match x with UStep t => if returns_one s t then drop_first t left else left | _ => left end)).
    { destruct x as [t [kd|r ts| |]|t|t a|t]; try discriminate E;
        match type of E with match ?y with _ => _ end = _ => destruct y as [s'|] eqn:Y; [|discriminate E] end;
        inversion E; subst; exists s'; repeat split; auto; intros; discriminate. }
    clear E. destruct X as (s' & E & NI & ->). unfold SysModel.sexec in E. destruct (y_stop s); [discriminate|].
    destruct x as [t c|t|t a|t]; destruct (nth_error (y_pcs s) t) as [p|] eqn:N; try discriminate E.
    + apply (quiet_inv progs s s' left t); auto. destruct p; try discriminate E. destruct c as [kd|r ts| |].
      * inversion E; subst. quiet_tac N.
      * exfalso. eapply NI. reflexivity.
      * inversion E; subst. quiet_tac N.
      * destruct (y_jobs s); inversion E; subst. quiet_tac N.
    + destruct (in_app p) eqn:A.
      * destruct p; try discriminate A. eapply app_inv; eauto.
      * assert (R0 : returns_one s t = false).
        { unfold returns_one. rewrite N. destruct p; auto. discriminate A. }
        rewrite R0. apply (quiet_inv progs s s' left t); auto. eapply run_quiet; eauto.
        intros bp B. destruct K as [K1 _]. specialize (K1 _ _ _ N B). unfold thread_ok in K1. rewrite A in K1. apply K1.
    + apply (quiet_inv progs s s' left t); auto. destruct p; try discriminate E.
      destruct (y_heap s a); [discriminate|]. unfold deref in E. destruct (y_heap s e); inversion E; subst.
      * quiet_tac N.
      * apply quiet_same; reflexivity.
    + apply (quiet_inv progs s s' left t); auto. destruct p; try discriminate E; inversion E; subst.
      * quiet_tac N.
      * quiet_tac N.
Qed.

Theorem clients_once : forall ok progs k, kreach lwm hwm cap ok (k_init hwm cap progs) k ->
  Permutation (map snd (done (k_sys k)) ++ concat (k_left k)) (concat progs).
Proof.
  intros ok progs k H. enough (kinv progs k) by (apply ki_all; auto).
  remember (k_init hwm cap progs) as k0 eqn:K0. induction H as [|k k1 a x k2 H IH A O E]; subst.
  - apply start_inv.
  - eapply step_inv; eauto.
Qed.

Lemma kreach_sreach : forall ok k0 k, kreach lwm hwm cap ok k0 k -> sreach lwm hwm cap ok (k_sys k0) (k_sys k).
Proof.
  intros ok k0 k H. induction H as [|k k1 a x k2 H IH A O E]; [constructor|]. econstructor; eauto.
  destruct a as [t|y]; cbn in A, E.
  - destruct (nth_error (k_left k1) t) as [[|[r ts] l]|]; try discriminate. inversion A; subst.
    destruct (sexec (k_sys k1) (UCall t (UInsert r ts))); inversion E; subst; auto.
  - inversion A; subst. destruct x as [t [kd|r ts| |]|t|t a|t]; try discriminate E;
      match type of E with match ?y with _ => _ end = _ => destruct y as [s'|] eqn:Y; [|discriminate E] end;
      inversion E; subst; auto.
Qed.

(** Concrete schedules. *)
Fixpoint kchecked (chk : sys R -> sact R -> bool) k (l : list (kact R)) : option (clients R) :=
  match l with
  | [] => Some k
  | a :: l' =>
      match act_of k a with
      | Some x => if chk (k_sys k) x then match kexec k a with Some k' => kchecked chk k' l' | None => None end else None
      | None => None
      end
  end.

Lemma kchecked_reach : forall chk (ok : sys R -> sact R -> Prop), (forall s x, chk s x = true -> ok s x) ->
  forall l k k', kchecked chk k l = Some k' -> kreach lwm hwm cap ok k k'.
Proof.
  intros chk ok H l. assert (G : forall l k0 k k', kreach lwm hwm cap ok k0 k -> kchecked chk k l = Some k' -> kreach lwm hwm cap ok k0 k').
  { clear l. induction l as [|a l IH]; intros k0 k k' C E; cbn in E; [inversion E; subst; auto|].
    destruct (act_of k a) as [x|] eqn:A; [|discriminate]. destruct (chk (k_sys k) x) eqn:K; [|discriminate].
    destruct (kexec k a) as [k1|] eqn:X; [|discriminate]. eapply IH; [|exact E]. econstructor; eauto. }
  intros k k' E. eapply G; eauto. constructor.
Qed.

Lemma kchecked_seen : forall {V} chk (ok : sys R -> sact R -> Prop), (forall s x, chk s x = true -> ok s x) ->
  forall k (f : clients R -> V) l v, option_map f (kchecked chk k l) = Some v ->
  exists k', kchecked chk k l = Some k' /\ kreach lwm hwm cap ok k k' /\ f k' = v.
Proof.
  intros V chk ok H k f l v E. destruct (kchecked chk k l) as [k'|] eqn:K; [|discriminate]. exists k'. split; auto.
  split; [eapply kchecked_reach; eauto|]. inversion E. auto.
Qed.

(** ** The benchmark *)

Lemma firstn_plus : forall {A} a m (l : list A), firstn a l ++ firstn m (skipn a l) = firstn (a + m) l.
Proof. induction a as [|a IH]; intros m [|x l]; cbn; auto; [rewrite firstn_nil; auto|f_equal; auto]. Qed.

Lemma skipn_plus : forall {A} a m (l : list A), skipn (a + m) l = skipn m (skipn a l).
Proof. induction a as [|a IH]; intros m [|x l]; cbn; auto. rewrite skipn_nil. auto. Qed.

Lemma shares_cover : forall (data : list R) per t start,
  concat (map (fun '(a, b) => inserts a b data) (shares per start t)) = map (fun r => (r, false)) (firstn (t * per) (skipn start data)).
Proof.
  intros data per. induction t as [|t IH]; intros start; cbn [shares map concat Nat.mul]; auto.
  rewrite IH. unfold inserts. replace (start + per - start) with per by lia. rewrite <- map_app. f_equal.
  rewrite skipn_plus. apply firstn_plus.
Qed.

Lemma scaling_records : forall (data : list R) n w t others,
  concat (scaling data n w t others) = map (fun r => (r, false)) (firstn (w + t * ((n - w) / t)) data).
Proof.
  intros. unfold scaling. cbn [concat]. rewrite concat_app, shares_cover.
  assert (Z : forall m, concat (repeat (@nil (R * bool)) m) = []) by (induction m; auto).
  rewrite Z, app_nil_r. unfold inserts. rewrite Nat.sub_0_r. cbn [skipn]. rewrite <- map_app. f_equal.
  apply firstn_plus.
Qed.

Theorem scaling_inserts : forall ok (data : list R) n w t others k,
  kreach lwm hwm cap ok (k_init hwm cap (scaling data n w t others)) k -> Forall (eq []) (k_left k) ->
  Permutation (map snd (done (k_sys k))) (map (fun r => (r, false)) (firstn (w + t * ((n - w) / t)) data)).
Proof.
  intros ok data n w t others k H F. rewrite <- scaling_records with (others := others). rewrite <- (clients_once _ _ _ H).
  assert (Z : concat (k_left k) = []) by (induction F as [|l ls E F IH]; subst; auto). rewrite Z, app_nil_r. reflexivity.
Qed.

Theorem scaling_all : forall ok (data : list R) n w t others k, 0 < t -> n = length data -> w <= n -> (n - w) mod t = 0 ->
  kreach lwm hwm cap ok (k_init hwm cap (scaling data n w t others)) k -> Forall (eq []) (k_left k) ->
  Permutation (map snd (done (k_sys k))) (map (fun r => (r, false)) data).
Proof.
  intros ok data n w t others k T N W M H F. rewrite (scaling_inserts _ _ _ _ _ _ _ H F).
  pose proof (Nat.div_mod (n - w) t ltac:(lia)) as D. rewrite M, Nat.add_0_r in D. rewrite <- D.
  rewrite firstn_all2 by lia. reflexivity.
Qed.

(** ** Where the records are *)

Theorem clients_stored : forall progs k e l r ts, 0 < hwm -> 2 * hwm <= cap ->
  kreach lwm hwm cap calm (k_init hwm cap progs) k -> Forall (eq []) (k_left k) -> y_stop (k_sys k) = None ->
  c_ep (y_cur (k_sys k)) = Some e -> In l progs -> In (r, ts) l ->
  exists x y, y_heap (k_sys k) e = Some x /\ In (y, (r, ts)) (done (k_sys k)) /\
    if y <? hidx (cb_head (cs_buf (y_buf (k_sys k)))) then nth_error (e_recs x) y = Some (append_rec r ts (y mod cap))
    else nth_error (cb_data (cs_buf (y_buf (k_sys k)))) (y mod cap) = Some (append_rec r ts (y mod cap)).
Proof.
  intros progs k e l r ts H1 H2 H F NS CE IL IR. pose proof (clients_once _ _ _ H) as P.
  assert (Z : concat (k_left k) = []) by (induction F as [|l0 ls E F IH]; subst; auto). rewrite Z, app_nil_r in P.
  assert (I : In (r, ts) (map snd (done (k_sys k)))).
  { eapply Permutation_in; [apply Permutation_sym; exact P|]. apply in_concat. eauto. }
  apply in_map_iff in I as ([y q] & Q & I). cbn in Q. subst q.
  apply kreach_sreach in H. cbn [k_init k_sys] in H.
  destruct (durable lwm hwm cap (length progs) (k_sys k) e y r ts H1 H2 H NS CE I) as (x & X & _ & D). exists x, y. auto.
Qed.

End SP.
