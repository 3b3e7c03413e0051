(** What C85 and C86 say about files: how numbers, lines and tables are written. *)
From Coq Require Import List Arith ZArith NArith Lia Bool.
From Verif Require Import Base RecordModel.
Import ListNotations.

(** The [k] bytes of a number, the lowest first. *)
Fixpoint le_bytes (k : nat) (x : N) : list N :=
  match k with
  | O => []
  | S k' => (x mod 256)%N :: le_bytes k' (x / 256)%N
  end.
Definition fits (k : nat) (x : N) : Prop := (x < 256 ^ N.of_nat k)%N.

(** A point as it is written to a binary file. *)
Definition point_bytes (p : list N) : list N := concat (map (le_bytes 8) p).

(** The lines of a text file, each with its end. *)
Definition text (ls : list (list N)) : list N := concat (map (fun l => l ++ [10%N]) ls).

(** Words with one space between them. *)
Fixpoint spaced (ws : list (list N)) : list N :=
  match ws with
  | [] => []
  | [w] => w
  | w :: ws' => w ++ 32%N :: spaced ws'
  end.

(** A word: characters other than spaces and line ends, at least one. *)
Definition word (w : list N) : Prop := w <> [] /\ ~ In 32%N w /\ ~ In 10%N w.

(** [ds] are the decimal digits of the number [x]. *)
Definition numeral (ds : list N) (x : N) : Prop :=
  ds <> [] /\ Forall (fun d => 48 <= d <= 57)%N ds /\ fold_left (fun a d => 10 * a + (d - 48))%N ds 0%N = x.

(** A scanner reads the text [t] as the value [x], whatever comes after the space or line
    end that follows. *)
Definition reads_as {V} (scan : list N -> option (V * list N)) (t : list N) (x : V) : Prop :=
  (exists c t', t = c :: t' /\ (33 <= c)%N) /\
  forall c rest, c = 10%N \/ c = 32%N -> scan (t ++ c :: rest) = Some (x, c :: rest).

(** A line of a query file: the texts of two bounds and a selectivity, with their values. *)
Record qline (V : Type) := QL { ql_text : list N * list N * list N; ql_lo : N; ql_hi : N; ql_sel : V }.
Arguments QL {V} _ _ _ _.
Arguments ql_text {V} _. Arguments ql_lo {V} _. Arguments ql_hi {V} _. Arguments ql_sel {V} _.

Definition good_line {V} (scan : list N -> option (V * list N)) (q : qline V) : Prop :=
  let '(a, b, s) := ql_text q in
  numeral a (ql_lo q) /\ numeral b (ql_hi q) /\ reads_as scan s (ql_sel q) /\
  (ql_lo q < 2 ^ 64)%N /\ (ql_hi q < 2 ^ 64)%N.

Definition query_text {V} (qs : list (qline V)) : list N :=
  text (map (fun q => let '(a, b, s) := ql_text q in spaced [a; b; s]) qs).
