(** Records and the record wrapper (include/framework/interface/Record.h). *)
From Coq Require Import List Arith ZArith NArith Lia Bool String Ascii.
From Verif Require Import Base.
Import ListNotations.

(** Record.h:21-25, RecordInterface: a record type offers [operator<] and
    [operator==].  [rzero] is the value-initialised record that fills a fresh
    buffer (MutableBuffer.h:49, [new Wrapped<R>[m_cap]()]). *)
Class RecOps (R : Type) := {
  rlt : R -> R -> bool;
  req : R -> R -> bool;
  rzero : R
}.

(** What std::sort and the merge need of a record type: [operator<] is a strict
    weak order and [operator==] is its incomparability relation. *)
Class RecLaws (R : Type) {RO : RecOps R} : Prop := {
  rlt_irrefl : forall a, rlt a a = false;
  rlt_trans : forall a b c, rlt a b = true -> rlt b c = true -> rlt a c = true;
  req_spec : forall a b, req a b = true <-> (rlt a b = false /\ rlt b a = false);
  req_trans : forall a b c, req a b = true -> req b c = true -> req a c = true
}.

(** Record.h:37-41, KVPInterface: the member [key].  Keys are integers here;
    [rkey] is monotone in the record order. *)
Class KeyOps (R : Type) := { rkey : R -> Z }.
Class KeyLaws (R : Type) {RO : RecOps R} {K : KeyOps R} : Prop := {
  rkey_mono : forall a b, rlt a b = true -> (rkey a <= rkey b)%Z;
  rkey_eq : forall a b, req a b = true -> rkey a = rkey b
}.

(** Record.h:67-102, struct Wrapped: a 32-bit header and a record. *)
Record wrapped (R : Type) := W { hdr : N; wrec : R }.
Arguments W {R} hdr wrec.
Arguments hdr {R} w.
Arguments wrec {R} w.

Definition w32 (n : N) : N := N.modulo n (2 ^ 32).

(** Record.h:71-97, the header accessors, on the bare header. *)
Definition h_set_delete (h : N) : N := N.lor h 2.
Definition h_is_deleted (h : N) : bool := negb (N.land h 2 =? 0)%N.
Definition h_set_visible (h : N) : N := N.lor h 4.
Definition h_is_visible (h : N) : bool := negb (N.land h 4 =? 0)%N.
(** Record.h:79: [ts << 3] is computed in a 32-bit int; timestamps are
    non-negative here. *)
Definition h_set_timestamp (ts : N) (h : N) : N := N.lor h (w32 (N.shiftl ts 3)).
Definition h_get_timestamp (h : N) : N := N.shiftr h 3.
Definition h_clear_timestamp (h : N) : N := N.land h 7.
(** Record.h:85-91: [set_tombstone(false)] clears the *whole* header. *)
Definition h_set_tombstone (val : bool) (h : N) : N :=
  if val then N.lor h 1 else N.land h 0.
Definition h_is_tombstone (h : N) : bool := negb (N.land h 1 =? 0)%N.

Section Wrapped.
Context {R : Type} {RO : RecOps R}.

Definition is_ts (w : wrapped R) : bool := h_is_tombstone (hdr w).
Definition is_del (w : wrapped R) : bool := h_is_deleted (hdr w).
Definition is_vis (w : wrapped R) : bool := h_is_visible (hdr w).
Definition set_delete (w : wrapped R) : wrapped R := W (h_set_delete (hdr w)) (wrec w).

(** Record.h:95-97, [Wrapped::operator<]: record first, then the raw header. *)
Definition wlt (a b : wrapped R) : bool :=
  rlt (wrec a) (wrec b) || (req (wrec a) (wrec b) && (hdr a <? hdr b)%N).

(** Record.h:99-101, [Wrapped::operator==]: the record only. *)
Definition weq (a b : wrapped R) : bool := req (wrec a) (wrec b).

(** [base->header &= 3] (SortedMerge.h:126). *)
Definition mask3 (w : wrapped R) : wrapped R := W (N.land (hdr w) 3) (wrec w).

End Wrapped.

(** ** Record types of the library *)

(** Record.h:104-115, [Record<K,V>] for any key and value types. *)
Definition rec_lt {K V} {KR : RecOps K} {VR : RecOps V} (a b : K * V) : bool :=
  rlt (fst a) (fst b) || (req (fst a) (fst b) && rlt (snd a) (snd b)).
Definition rec_eq {K V} {KR : RecOps K} {VR : RecOps V} (a b : K * V) : bool :=
  req (fst a) (fst b) && req (snd a) (snd b).

(** The same with integer key and value. *)
Record kv := KV { k_key : Z; k_val : Z }.
Definition kv_lt (a b : kv) : bool :=
  (k_key a <? k_key b)%Z || ((k_key a =? k_key b)%Z && (k_val a <? k_val b)%Z).
Definition kv_eq (a b : kv) : bool :=
  (k_key a =? k_key b)%Z && (k_val a =? k_val b)%Z.
#[global] Instance kv_ops : RecOps kv := {| rlt := kv_lt; req := kv_eq; rzero := KV 0 0 |}.
#[global] Instance kv_key : KeyOps kv := {| rkey := k_key |}.

(** Record.h:133-145, [WeightedRecord<K,V,W>]: the weight is not compared.  The
    value-initialised record has weight 1 (default member initialiser). *)
Record wkv := WKV { wk_key : Z; wk_val : Z; wk_weight : Z }.
Definition wkv_lt (a b : wkv) : bool :=
  (wk_key a <? wk_key b)%Z || ((wk_key a =? wk_key b)%Z && (wk_val a <? wk_val b)%Z).
Definition wkv_eq (a b : wkv) : bool :=
  (wk_key a =? wk_key b)%Z && (wk_val a =? wk_val b)%Z.
#[global] Instance wkv_ops : RecOps wkv := {| rlt := wkv_lt; req := wkv_eq; rzero := WKV 0 0 1 |}.
#[global] Instance wkv_key : KeyOps wkv := {| rkey := wk_key |}.

(** Record.h:147-171 and 190-214, [CosinePoint] / [EuclidPoint]: arrays of D
    coordinates, compared lexicographically by a loop over the coordinates.  A
    point is the list of its coordinates; the loops run over both lists. *)
Fixpoint pt_eq (a b : list Z) : bool :=
  match a, b with
  | x :: a', y :: b' => if negb (x =? y)%Z then false else pt_eq a' b'
  | _, _ => true
  end.
Fixpoint pt_lt (a b : list Z) : bool :=
  match a, b with
  | x :: a', y :: b' =>
      if (x <? y)%Z then true else if (y <? x)%Z then false else pt_lt a' b'
  | _, _ => false
  end.

(** Record.h:117-131, [Record<const char*,V>]: [strncmp] of at most
    [min(len, other.len) + 1] characters.  A C string is the list of its
    non-zero character codes; reading at the end yields the terminator 0. *)
Fixpoint strncmp (n : nat) (a b : list N) : comparison :=
  match n with
  | O => Eq
  | S n' =>
      match a, b with
      | [], [] => Eq
      | [], _ :: _ => Lt
      | _ :: _, [] => Gt
      | x :: a', y :: b' =>
          match N.compare x y with Eq => strncmp n' a' b' | c => c end
      end
  end.
Record skv := SKV { sk_key : list N; sk_val : Z; sk_len : nat }.
Definition skv_lt (a b : skv) : bool :=
  match strncmp (Nat.min (sk_len a) (sk_len b) + 1) (sk_key a) (sk_key b) with
  | Lt => true | _ => false end.
Definition skv_eq (a b : skv) : bool :=
  match strncmp (Nat.min (sk_len a) (sk_len b) + 1) (sk_key a) (sk_key b) with
  | Eq => true | _ => false end.
