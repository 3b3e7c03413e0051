(** The invariant of epochs, pins and reconstructions. *)
From Coq Require Import List Arith ZArith NArith Lia Bool.
From Verif Require Import Base ListLemmas RecordModel BufferModel BufConcModel BufConcProofs BufConcData SysModel.
Import ListNotations.

Section SI.
Context {R : Type} {RO : RecOps R}.
Variables lwm hwm cap : nat.
Notation cexec := (cexec hwm cap).
Notation sexec := (sexec lwm hwm cap).
Notation hd s := (hidx (cb_head (cs_buf (y_buf s)))).
Notation od s := (hidx (cb_old (cs_buf (y_buf s)))).
Notation adv s := (cs_adv (y_buf s)).
Notation bpcs s := (cs_pcs (y_buf s)).
Implicit Types (s : sys R) (p : spc R) (bp : pc R).

(** Where the reconstruction is. *)
Inductive stage :=
| StQuiet                     (* no next epoch *)
| StAlloc (a : nat)           (* it is allocated *)
| StNext (a : nat)            (* and stored in m_next_epoch *)
| StFlushed (a n : nat)       (* it contains the positions below n *)
| StDel (a n p : nat)         (* the previous epoch is to be deleted *)
| StRetired (a n : nat)       (* there is no previous epoch *)
| StHand (a n : nat) (c : cell)   (* the current epoch is between the two cells *)
| StMoved (a n : nat)         (* the current epoch is in m_previous_epoch *)
| StSwung (a : nat)           (* and the buffer head has advanced *)
| StPub (a : nat).            (* the new epoch is current *)

(** The active epoch and its counter, the previous one, and the number of jobs that
    ended on the previous epoch but released the active one. *)
Record ghost := Gh { g_act : nat; g_k : nat; g_prev : option (nat * nat); g_m : nat }.

Definition headof s (e : nat) : option nat := option_map e_head (y_heap s e).
Definition pin_eqb (e : nat) p : bool := match pinned p with Some x => x =? e | None => false end.
Definition pins s (e : nat) : nat := countb (pin_eqb e) (y_pcs s).

Definition pc_stage p (st : stage) : Prop :=
  match p with
  | NNull _ _ | SGet _ (ForNew _ _) | NClone _ _ _ | DNotify | DFlag => st = StQuiet
  | NStore _ a _ _ => st = StAlloc a
  | SEnd _ _ (ToNew _ _) | NLoad _ _ => exists a, st = StNext a
  | NTask a _ _ | RView a | RHold a | RRead a _ _ _ | RFlush a _ _ => st = StNext a
  | RRel a n | RRelW a n => st = StFlushed a n
  | DLoad n | DRet n _ | DRetCas n _ _ => exists a, st = StFlushed a n
  | DDel n p => exists a, st = StDel a n p
  | DCur n | DCurCas n _ => exists a, st = StRetired a n
  | DPrev n c => exists a, st = StHand a n c
  | DAdv n | DAdvW n => exists a, st = StMoved a n
  | DPub => exists a, st = StSwung a
  | DPubSt x => exists a, st = StSwung a /\ x = Cell (Some a) 0
  | DNext => exists a, st = StPub a
  | _ => True
  end.

Definition owner s (st : stage) : Prop :=
  (countb recon (y_pcs s) = 0 /\ y_jobs s = [] /\ y_flag s = false /\ st = StQuiet) \/
  (countb recon (y_pcs s) = 0 /\ y_flag s = true /\ exists a, y_jobs s = [a] /\ st = StNext a) \/
  (countb recon (y_pcs s) = 1 /\ y_jobs s = [] /\ y_flag s = true /\
   forall p, In p (y_pcs s) -> recon p = true -> pc_stage p st).

Definition st_next (st : stage) : option nat :=
  match st with
  | StQuiet | StAlloc _ => None
  | StNext a | StFlushed a _ | StDel a _ _ | StRetired a _ | StHand a _ _ | StMoved a _
  | StSwung a | StPub a => Some a
  end.

Definition pcell (po : option (nat * nat)) : cell :=
  match po with None => null | Some (p, q) => Cell (Some p) q end.

Definition cells s (st : stage) (g : ghost) : Prop :=
  y_next s = Cell (st_next st) 0 /\
  match st with
  | StHand _ _ c => y_cur s = null /\ y_prev s = null /\ c = Cell (Some (g_act g)) (g_k g) /\ g_prev g = None
  | StMoved _ _ | StSwung _ => y_cur s = null /\ y_prev s = Cell (Some (g_act g)) (g_k g) /\ g_prev g = None
  | StDel _ _ _ | StRetired _ _ => y_cur s = Cell (Some (g_act g)) (g_k g) /\ y_prev s = null /\ g_prev g = None
  | StPub a => y_cur s = Cell (Some (g_act g)) (g_k g) /\ y_prev s = pcell (g_prev g) /\ g_act g = a
  | _ => y_cur s = Cell (Some (g_act g)) (g_k g) /\ y_prev s = pcell (g_prev g)
  end.

Definition pins_ok s (g : ghost) : Prop :=
  g_k g + g_m g = pins s (g_act g) /\
  match g_prev g with
  | None => g_m g = 0
  | Some (p, q) => q = pins s p + g_m g /\ p <> g_act g
  end /\
  forall e, e <> g_act g -> (forall q, g_prev g <> Some (e, q)) -> pins s e = 0.

(** The epoch being built. *)
Definition st_new (st : stage) : option nat :=
  match st with
  | StQuiet | StPub _ => None
  | StAlloc a | StNext a | StFlushed a _ | StDel a _ _ | StRetired a _ | StHand a _ _ | StMoved a _
  | StSwung a => Some a
  end.

Definition heads s (st : stage) (g : ghost) : Prop :=
  (exists h, headof s (g_act g) = Some h /\
    match st with
    | StMoved a n =>
        match adv s with
        | VIdle => hd s = h
        | VHead n' | VTail n' | VRef n' | VLoad n' | VCas n' _ => n' = n /\ hd s = h
        | VOld n' cur => n' = n /\ hidx cur = h /\ hd s = n /\ h < n /\ headof s a = Some n
        | VCrash => False
        end
    | StSwung a => adv s = VIdle /\ od s = h /\ h < hd s /\ headof s a = Some (hd s)
    | _ => adv s = VIdle /\ hd s = h
    end) /\
  (forall x q, g_prev g = Some (x, q) -> headof s x = Some (od s) /\ od s < hd s) /\
  (forall a, st_new st = Some a -> a <> g_act g /\ (forall q, g_prev g <> Some (a, q)) /\
     match st with
     | StAlloc _ | StNext _ => headof s a = Some (hd s)
     | StMoved _ n => match adv s with VIdle => headof s a <> None | _ => headof s a = Some n end
     | _ => headof s a <> None
     end) /\
  (forall a n x, st = StDel a n x -> x <> g_act g /\ x <> a /\ headof s x <> None).

(** Local facts about a thread. *)
Definition pc_ok s p : Prop :=
  match p with
  | SGet GPrev (ForNew _ _) | SGet (GPrevCas _) (ForNew _ _) => False
  | JView KTouch _ _ _ | JHold KTouch _ _ _ | JRead KTouch _ _ _ _ _ _ => False
  | SGet (GPrevCas old) _ | SGet (GCurrCas old) _ => c_ep old <> None
  | NClone e _ _ => c_ep (y_cur s) = Some e
  | SEnd EPrev e _ => c_ep (y_prev s) = Some e
  | SEnd (EPrevCas old) e _ => c_ep (y_prev s) = Some e /\ c_ep old = Some e /\ 0 < c_ref old
  | SEnd (ECurrCas old) _ _ => c_ep old <> None /\ 0 < c_ref old
  | DRet _ p => c_ep (y_prev s) = Some p
  | DRetCas _ p old => c_ep (y_prev s) = Some p /\ old = Cell (Some p) 0
  | DAdv _ => adv s = VIdle
  | DAdvW _ => adv s <> VIdle
  | _ => True
  end.

Definition appending bp : bool :=
  match bp with
  | ALoad _ _ | AHead _ _ _ | ACas _ _ _ | ARetry _ _ _ | ARefused | AWrite _ _ _ | AStamp _ _ _ | AVis _ _ _ => true
  | _ => false
  end.
Definition releasing bp : bool :=
  match bp with
  | ROld _ | ROldLd _ | ROldCas _ _ | RCurLd _ | RCurCas _ _ => true
  | _ => false
  end.

(** What the buffer knows of the thread. *)
Definition link s p bp : Prop :=
  match p with
  | JHold _ e _ _ | RHold e => exists t, (seeks bp = Some t \/ bp = GTail t) /\ headof s e = Some t
  | JRead _ e _ _ h tl _ | RRead e h tl _ => bp = Hold h tl /\ headof s e = Some h
  | JShards KTouch _ _ _ _ _ => bp = Idle
  | JShards _ e _ h tl _ => bp = Hold h tl /\ headof s e = Some h
  | RFlush e tl _ => exists h, bp = Hold h tl /\ headof s e = Some h
  | JRel _ | SEnd _ _ ToRelease | QRel | RRel _ _ => exists h tl, bp = Hold h tl
  | JRelW _ | QRelW | RRelW _ _ => releasing bp = true
  | IAppW => appending bp = true
  | _ => bp = Idle
  end.

Record inv s (st : stage) (g : ghost) : Prop := {
  i_own : owner s st;
  i_cells : cells s st g;
  i_pins : pins_ok s g;
  i_heads : heads s st g;
  i_pcs : forall t p bp, nth_error (y_pcs s) t = Some p -> nth_error (bpcs s) t = Some bp ->
            pc_ok s p /\ link s p bp;
  i_len : length (bpcs s) = length (y_pcs s);
  i_j : jinv hwm cap (y_buf s)
}.

(** ** General lemmas *)

Lemma ep_eqb_eq : forall a b, ep_eqb a b = true <-> a = b.
Proof.
  intros [a|] [b|]; cbn; split; intro H; try discriminate; auto.
  - apply Nat.eqb_eq in H. subst. auto.
  - inversion H. apply Nat.eqb_refl.
Qed.

Lemma cell_eqb_eq : forall a b, cell_eqb a b = true -> a = b.
Proof.
  intros [a x] [b y] H. unfold cell_eqb in H. cbn in H. apply andb_prop in H as [H1 H2].
  apply ep_eqb_eq in H1. apply Nat.eqb_eq in H2. subst. auto.
Qed.

Lemma nth_set_same : forall {A} (l : list A) t x y, nth_error l t = Some x -> nth_error (set_nth t y l) t = Some y.
Proof. induction l; intros [|t] x y H; cbn in *; try discriminate; auto. eapply IHl; eauto. Qed.

Lemma nth_set_other : forall {A} (l : list A) t u y, u <> t -> nth_error (set_nth t y l) u = nth_error l u.
Proof. induction l; intros [|t] [|u] y H; cbn in *; auto; try lia. Qed.

Lemma set_nth_id : forall {A} (l : list A) t x, nth_error l t = Some x -> set_nth t x l = l.
Proof. induction l; intros [|t] x H; cbn in *; try discriminate; auto; [congruence|f_equal; auto]. Qed.

Lemma pins_set : forall s l' t p q e, nth_error (y_pcs s) t = Some p -> l' = set_nth t q (y_pcs s) ->
  countb (pin_eqb e) l' + (if pin_eqb e p then 1 else 0) = pins s e + (if pin_eqb e q then 1 else 0).
Proof. intros. subst. apply countb_set_nth. auto. Qed.

Lemma recon_one : forall s st t p, owner s st -> nth_error (y_pcs s) t = Some p -> recon p = true ->
  countb recon (y_pcs s) = 1 /\ y_jobs s = [] /\ y_flag s = true /\ pc_stage p st.
Proof.
  intros s st t p O N RC. assert (I := nth_error_In _ _ N).
  pose proof (countb_in recon _ _ I RC) as Q.
  destruct O as [(H & _)|[(H & _)|(H & J & F & P)]]; try lia. repeat split; auto.
Qed.

Lemma countb_two : forall {A} (f : A -> bool) l t u x y, nth_error l t = Some x -> nth_error l u = Some y -> t <> u ->
  f x = true -> f y = true -> 2 <= countb f l.
Proof.
  induction l as [|a l IH]; intros [|t] [|u] x y T U N X Y; cbn in *; try discriminate; try lia.
  - inversion T; subst. rewrite X. pose proof (countb_in f l y (nth_error_In _ _ U) Y). lia.
  - inversion U; subst. rewrite Y. pose proof (countb_in f l x (nth_error_In _ _ T) X). lia.
  - specialize (IH t u x y T U ltac:(lia) X Y). destruct (f a); lia.
Qed.

Lemma recon_other : forall s st t u p q, owner s st -> nth_error (y_pcs s) t = Some p -> recon p = true ->
  nth_error (y_pcs s) u = Some q -> u <> t -> recon q = false.
Proof.
  intros s st t u p q O T RP U N. destruct (recon q) eqn:RQ; auto.
  destruct (recon_one _ _ _ _ O T RP) as (C & _).
  pose proof (countb_two recon _ t u p q T U ltac:(lia) RP RQ). lia.
Qed.

(** ** The owner *)

Lemma own_stay : forall s s' st t p p', owner s st -> nth_error (y_pcs s) t = Some p ->
  recon p = false -> recon p' = false -> y_pcs s' = set_nth t p' (y_pcs s) ->
  y_jobs s' = y_jobs s -> y_flag s' = y_flag s -> owner s' st.
Proof.
  intros s s' st t p p' O N RP RQ E J F. unfold owner in *. rewrite J, F.
  assert (C : countb recon (y_pcs s') = countb recon (y_pcs s)).
  { pose proof (countb_set_nth recon _ t p p' N) as Q. rewrite RP, RQ, <- E in Q. lia. }
  rewrite C. destruct O as [O|[O|(H1 & H2 & H3 & P)]]; auto. right. right. repeat split; auto.
  intros q I RC. rewrite E in I. apply in_set_nth_other in I as [->|(u & _ & U)]; [congruence|].
  apply P; auto. eapply nth_error_In; eauto.
Qed.

Lemma own_move : forall s s' st st' t p p', owner s st -> nth_error (y_pcs s) t = Some p ->
  recon p = true -> recon p' = true -> pc_stage p' st' -> y_pcs s' = set_nth t p' (y_pcs s) ->
  y_jobs s' = y_jobs s -> y_flag s' = y_flag s -> owner s' st'.
Proof.
  intros s s' st st' t p p' O N RP RQ P E J F. destruct (recon_one _ _ _ _ O N RP) as (C & J0 & F0 & _).
  right. right. rewrite J, F. repeat split; auto.
  - pose proof (countb_set_nth recon _ t p p' N) as Q. rewrite RP, RQ, <- E in Q. lia.
  - intros q I RC. rewrite E in I. apply in_set_nth_other in I as [->|(u & U1 & U)]; auto.
    pose proof (recon_other _ _ _ _ _ _ O N RP U U1). congruence.
Qed.

(** ** Pins *)

Lemma pins_same : forall s s' g t p p', pins_ok s g -> nth_error (y_pcs s) t = Some p ->
  y_pcs s' = set_nth t p' (y_pcs s) -> pinned p' = pinned p -> pins_ok s' g.
Proof.
  intros s s' g t p p' H N E P.
  assert (Q : forall e, pins s' e = pins s e).
  { intro e. pose proof (pins_set s _ t p p' e N E) as Q. unfold pins in *.
    assert (X : pin_eqb e p' = pin_eqb e p) by (unfold pin_eqb; rewrite P; auto). rewrite X in Q. lia. }
  destruct H as (H1 & H2 & H3). unfold pins_ok. rewrite Q. split; auto. split.
  - destruct (g_prev g) as [[x q]|]; auto. rewrite Q. auto.
  - intros. rewrite Q. auto.
Qed.

Lemma pinned_active : forall s g t p e, pins_ok s g -> nth_error (y_pcs s) t = Some p -> pinned p = Some e ->
  0 < pins s e /\ (e = g_act g \/ exists q, g_prev g = Some (e, q) /\ e <> g_act g).
Proof.
  intros s g t p e (H1 & H2 & H3) N P.
  assert (Q : 0 < pins s e).
  { apply (countb_in _ _ p); [eapply nth_error_In; eauto|]. unfold pin_eqb. rewrite P. apply Nat.eqb_refl. }
  split; auto. destruct (Nat.eq_dec e (g_act g)) as [->|NE]; auto. right.
  destruct (g_prev g) as [[x q]|] eqn:G.
  - destruct (Nat.eq_dec x e) as [->|NX]; [exists q; auto|]. rewrite H3 in Q; auto; [lia|]. intros q' E. congruence.
  - rewrite H3 in Q; auto; [lia|]. intros q' E. discriminate.
Qed.

(** Every pinned epoch is alive. *)
Lemma pinned_alive : forall s st g t p e, inv s st g -> nth_error (y_pcs s) t = Some p -> pinned p = Some e ->
  exists x, y_heap s e = Some x.
Proof.
  intros s st g t p e I N P. destruct I as [_ _ PI HE _ _ _].
  destruct (pinned_active _ _ _ _ _ PI N P) as (_ & C). destruct HE as ((h & A & _) & B & _).
  unfold headof in *. destruct C as [->|(q & G & _)].
  - destruct (y_heap s (g_act g)); [eauto|discriminate].
  - destruct (B _ _ G) as [X _]. destruct (y_heap s e); [eauto|discriminate].
Qed.

(** ** Steps that do not disturb the other threads *)

Definition tame s s' : Prop :=
  (c_ep (y_prev s') = c_ep (y_prev s) /\ c_ep (y_cur s') = c_ep (y_cur s)) /\ (forall e, headof s' e = headof s e) /\
  adv s' = adv s /\ hd s' = hd s /\ od s' = od s.

Lemma tame_heads : forall s s' st g, tame s s' -> heads s st g -> heads s' st g.
Proof.
  intros s s' st g (T1 & T2 & T3 & T4 & T5) ((h & A & B) & C & D & E). unfold heads.
  rewrite T4, T5, T3. split; [|split; [|split]].
  - exists h. rewrite T2. split; auto. destruct st; auto.
    + destruct (adv s); auto. rewrite T2. auto.
    + rewrite T2. auto.
  - intros. rewrite T2. eauto.
  - intros a H. rewrite T2. auto.
  - intros a n p H. rewrite T2. eauto.
Qed.

Lemma tame_pc : forall s s' p, tame s s' -> pc_ok s p -> pc_ok s' p.
Proof.
  intros s s' p (T1 & T2 & T3 & T4 & T5) H. unfold pc_ok in *. destruct T1 as [T1 T0]. rewrite T1, T0, T3. auto.
Qed.

Lemma tame_link : forall s s' p bp, tame s s' -> link s p bp -> link s' p bp.
Proof.
  intros s s' p bp (T1 & T2 & T3 & T4 & T5) H. unfold link in *.
  destruct p; auto; try (rewrite T2; auto; fail).
Qed.

Lemma tame_inv : forall s s' st g st' g' t p p' bp bp', inv s st g ->
  nth_error (y_pcs s) t = Some p -> nth_error (bpcs s) t = Some bp ->
  y_pcs s' = set_nth t p' (y_pcs s) -> bpcs s' = set_nth t bp' (bpcs s) -> tame s s' ->
  jinv hwm cap (y_buf s') -> owner s' st' -> cells s' st' g' -> pins_ok s' g' -> heads s st' g' ->
  pc_ok s' p' -> link s' p' bp' -> inv s' st' g'.
Proof.
  intros s s' st g st' g' t p p' bp bp' I N NB E EB T J O C P H PO LK. destruct I as [_ _ _ _ IP IL _].
  constructor; auto.
  - eapply tame_heads; eauto.
  - intros u q bq U UB. rewrite E in U. rewrite EB in UB. destruct (Nat.eq_dec u t) as [->|NE].
    + rewrite (nth_set_same _ _ _ _ N) in U. rewrite (nth_set_same _ _ _ _ NB) in UB.
      inversion U; inversion UB; subst. auto.
    + rewrite nth_set_other in U by auto. rewrite nth_set_other in UB by auto. destruct (IP _ _ _ U UB) as [A B].
      split; [eapply tame_pc|eapply tame_link]; eauto.
  - rewrite E, EB, !set_nth_length. auto.
Qed.

(** A step that changes nothing but the thread. *)
Lemma tame_refl : forall s s', y_prev s' = y_prev s -> y_cur s' = y_cur s -> y_heap s' = y_heap s -> y_buf s' = y_buf s -> tame s s'.
Proof. intros s s' H1 H2 H3 H4. unfold tame, headof. rewrite H1, H2, H3, H4. auto. Qed.

(** ... of a thread outside reconstructions. *)
Lemma inv_local : forall s s' st g t p p' bp, inv s st g ->
  nth_error (y_pcs s) t = Some p -> nth_error (bpcs s) t = Some bp ->
  y_pcs s' = set_nth t p' (y_pcs s) -> y_buf s' = y_buf s -> y_heap s' = y_heap s ->
  y_next s' = y_next s -> y_cur s' = y_cur s -> y_prev s' = y_prev s -> y_flag s' = y_flag s -> y_jobs s' = y_jobs s ->
  recon p = false -> recon p' = false -> pinned p' = pinned p ->
  pc_ok s' p' -> link s' p' bp -> inv s' st g.
Proof.
  intros s s' st g t p p' bp I N NB E EB EH E1 E2 E3 E4 E5 RP RQ P PO LK.
  pose proof I as [IO IC IPI IH IP IL IJ].
  eapply (tame_inv s s' st g st g t p p' bp bp); eauto.
  - rewrite EB. symmetry. apply set_nth_id. auto.
  - apply tame_refl; auto.
  - rewrite EB. auto.
  - eapply own_stay; eauto.
  - unfold cells in *. rewrite E1, E2, E3. auto.
  - eapply pins_same; eauto.
Qed.

(** ... of the reconstruction, with a new stage. *)
Lemma inv_owner : forall s s' st st' g t p p' bp, inv s st g ->
  nth_error (y_pcs s) t = Some p -> nth_error (bpcs s) t = Some bp ->
  y_pcs s' = set_nth t p' (y_pcs s) -> y_buf s' = y_buf s -> (forall e, headof s' e = headof s e) ->
  c_ep (y_prev s') = c_ep (y_prev s) -> c_ep (y_cur s') = c_ep (y_cur s) -> y_flag s' = y_flag s -> y_jobs s' = y_jobs s ->
  recon p = true -> recon p' = true -> pinned p' = pinned p ->
  pc_stage p' st' -> cells s' st' g -> heads s st' g ->
  pc_ok s' p' -> link s' p' bp -> inv s' st' g.
Proof.
  intros s s' st st' g t p p' bp I N NB E EB EH E3 E2 E4 E5 RP RQ P PS C H PO LK.
  pose proof I as [IO IC IPI IH IP IL IJ].
  eapply (tame_inv s s' st g st' g t p p' bp bp); eauto.
  - rewrite EB. symmetry. apply set_nth_id. auto.
  - unfold tame. rewrite EB. auto.
  - rewrite EB. auto.
  - eapply own_move; eauto.
  - eapply pins_same; eauto.
Qed.

End SI.
