(** The files that the benchmarks read (benchmarks/include/file_util.h).

    Simplifications: a file is the list of its bytes, it can be opened, and no read fails
    before its end; allocations succeed; the lines of kNN queries hold no NUL character.
    A variable that a read leaves without a value is [FOob] where it is copied.  atof, the
    conversion %lf of fscanf and the comparison of a selectivity with the wanted one are
    parameters. *)
From Coq Require Import List Arith ZArith NArith Lia Bool.
From Verif Require Import Base RecordModel.
Import ListNotations.

(** ** Binary files *)

(** A number in the byte order of the machine, the lowest byte first. *)
Definition le_value (bs : list N) : N := fold_right (fun b a => (b + 256 * a)%N) 0%N bs.

(** file.read of a number of [k] bytes: its value and the rest of the file. *)
Definition read_number (k : nat) (f : list N) : res (N * list N) :=
  if k <=? length f then Ok (le_value (firstn k f), skipn k f) else Fail FOob.

(** file_util.h:167-172, 188-193: [n] records from the [i]-th on; keys have [k] bytes and
    [key_of] is the value of type K that has the bytes of a number. *)
Fixpoint sosd_loop (k : nat) (key_of : N -> Z) (n i : nat) (f : list N) : res (list kv) :=
  match n with
  | O => Ok []
  | S n' =>
      do (x, f') <- read_number k f;
      do rs <- sosd_loop k key_of n' (S i) f';
      Ok (KV (key_of x) (Z.of_nat i) :: rs)
  end.

(** file_util.h:156-175 and 177-196. *)
Definition read_sosd_file (k : nat) (key_of : N -> Z) (n : nat) (f : list N) : res (list kv) :=
  sosd_loop k key_of n 0 f.

(** An int32_t where a size_t is expected (lines 104, 110 and 254, 260). *)
Definition int32_size (x : N) : N := if (x <? 2 ^ 31)%N then x else (x + 2 ^ 64 - 2 ^ 32)%N.

(** file_util.h:110-114, 260-264: [m] components. *)
Fixpoint read_components (m : nat) (f : list N) : res (list N * list N) :=
  match m with
  | O => Ok ([], f)
  | S m' =>
      do (x, f1) <- read_number 8 f;
      do (xs, f2) <- read_components m' f1;
      Ok (x :: xs, f2)
  end.

(** file_util.h:108-117, 259-267: [n] points of which the first [dim] components are
    read; a point has [D] of them. *)
Fixpoint points_loop (D : nat) (dim : N) (n : nat) (f : list N) : res (list (list N)) :=
  match n with
  | O => Ok []
  | S n' =>
      if (N.of_nat D <? dim)%N then Fail FOob
      else
        do (p, f') <- read_components (N.to_nat dim) f;
        do ps <- points_loop D dim n' f';
        Ok (p :: ps)
  end.

(** file_util.h:235-270: the numbers of points and of dimensions, then the points. *)
Definition read_binary_vector_file (D n : nat) (f : list N) : res (list (list N)) :=
  do (cnt, f1) <- read_number 4 f;
  do (dim, f2) <- read_number 4 f1;
  let m := if (int32_size cnt <? N.of_nat n)%N then N.to_nat (int32_size cnt) else n in
  points_loop D (int32_size dim) m f2.

(** file_util.h:84-120: the same, each point with [k]. *)
Definition read_binary_knn_queries (D k n : nat) (f : list N) : res (list (list N * nat)) :=
  do ps <- read_binary_vector_file D n f;
  Ok (map (fun p => (p, k)) ps).

(** ** Text files *)

(** std::getline with the separator [c] on a stream that is not at its end: the
    characters before the separator and those after it. *)
Fixpoint cut (c : N) (f : list N) : list N * list N :=
  match f with
  | [] => ([], [])
  | x :: f' => if (x =? c)%N then ([], f') else let '(a, b) := cut c f' in (x :: a, b)
  end.

(** Up to [n] calls of std::getline; at the end of the stream it fails. *)
Fixpoint pieces (c : N) (n : nat) (f : list N) : list (list N) :=
  match n with
  | O => []
  | S n' => match f with [] => [] | _ => fst (cut c f) :: pieces c n' (snd (cut c f)) end
  end.

(** What strdup copies of the characters of a string. *)
Fixpoint until_nul (s : list N) : list N :=
  match s with
  | [] => []
  | x :: s' => if (x =? 0)%N then [] else x :: until_nul s'
  end.

(** file_util.h:272-294. *)
Definition read_string_file (n : nat) (f : list N) : list (list N) := map until_nul (pieces 10 n f).

(** file_util.h:42-54: [cnt] search keys, strings chosen by random numbers. *)
Definition generate_string_lookup_queries (rng : nat -> nat) (cnt : nat) (strings : list (list N))
  : res (list (list N)) :=
  map_res (fun i => if length strings =? 0 then Fail FAssert else nth_res (rng i mod length strings) strings)
          (seq 0 cnt).

Section Text.
Context {V : Type}.
Variable atof : list N -> V.

(** file_util.h:204-233: of each line the first [D] numbers.  A point with fewer of them
    is shown as a shorter list; the rest of it has no value. *)
Definition read_vector_file (D n : nat) (f : list N) : list (list V) :=
  map (fun l => map atof (pieces 32 D l)) (pieces 10 n f).

(** strtok(line, " "): the tokens of a string; [t] is the one that is being read. *)
Fixpoint tokens (t : list N) (s : list N) : list (list N) :=
  match s with
  | [] => match t with [] => [] | _ => [t] end
  | x :: s' =>
      if (x =? 32)%N then match t with [] => tokens [] s' | _ => t :: tokens [] s' end
      else tokens (t ++ [x]) s'
  end.

(** getline of the C library: the separator belongs to the line. *)
Fixpoint cut_line (f : list N) : list N * list N :=
  match f with
  | [] => ([], [])
  | x :: f' => if (x =? 10)%N then ([x], f') else let '(a, b) := cut_line f' in (x :: a, b)
  end.

(** file_util.h:141-144: the components of a point; atof is called at least once. *)
Definition knn_point (D : nat) (line : list N) : res (list V) :=
  match tokens [] line with
  | [] => Fail FNull
  | ts => if D <? length ts then Fail FOob else Ok (map atof ts)
  end.

(** file_util.h:136-148; [fuel] is at least the number of lines. *)
Fixpoint knn_lines (fuel D k : nat) (f : list N) : res (list (list V * nat)) :=
  match fuel with
  | O => Fail FFuel
  | S fuel' =>
      match f with
      | [] => Ok []
      | _ =>
          do p <- knn_point D (fst (cut_line f));
          do qs <- knn_lines fuel' D k (snd (cut_line f));
          Ok ((p, k) :: qs)
      end
  end.

(** file_util.h:123-154. *)
Definition read_knn_queries (D k : nat) (f : list N) : res (list (list V * nat)) :=
  knn_lines (S (length f)) D k f.
End Text.

(** ** Range queries *)

(** isspace. *)
Definition blank_char (c : N) : bool := (c =? 32)%N || ((9 <=? c)%N && (c <=? 13)%N).
Fixpoint skip_blanks (f : list N) : list N :=
  match f with
  | x :: f' => if blank_char x then skip_blanks f' else f
  | [] => []
  end.

Definition digit_char (c : N) : bool := (48 <=? c)%N && (c <=? 57)%N.
(** The digits at the beginning of a text, added to a number. *)
Fixpoint scan_digits (a : N) (f : list N) : N * list N :=
  match f with
  | x :: f' => if digit_char x then scan_digits (10 * a + (x - 48))%N f' else (a, f)
  | [] => (a, [])
  end.

(** The conversion %zu without the blanks before it.  A number that is too large is
    replaced by the largest one, a negative one is taken modulo 2^64. *)
Definition scan_size (f : list N) : option (N * list N) :=
  let number g :=
    match g with
    | x :: _ => if digit_char x then let '(a, g') := scan_digits 0 g in Some (N.min a (2 ^ 64 - 1), g') else None
    | [] => None
    end in
  match f with
  | 43%N :: g => number g
  | 45%N :: g => match number g with Some (a, g') => Some ((2 ^ 64 - a) mod 2 ^ 64, g')%N | None => None end
  | _ => number f
  end.

Section Queries.
Context {V : Type}.
(** The conversion %lf without the blanks before it. *)
Variable scan_real : list N -> option (V * list N).
(** The distance to the wanted selectivity is small enough (lines 31 and 70). *)
Variable close : V -> bool.

(** The variables start, stop and sel; None before they have a value. *)
Record scanned := SC { sc_start : option N; sc_stop : option N; sc_sel : option V }.

(** fscanf(qf, "%zu%zu%lf\n", &start, &stop, &sel): None is EOF; after a conversion that
    fails the rest of the format is not looked at, and the text is left where it is. *)
Definition scan_line (v : scanned) (f : list N) : option (scanned * list N) :=
  match skip_blanks f with
  | [] => None
  | f0 =>
      Some match scan_size f0 with
           | None => (v, f0)
           | Some (a, f1) =>
               match scan_size (skip_blanks f1) with
               | None => (SC (Some a) (sc_stop v) (sc_sel v), skip_blanks f1)
               | Some (b, f2) =>
                   match scan_real (skip_blanks f2) with
                   | None => (SC (Some a) (Some b) (sc_sel v), skip_blanks f2)
                   | Some (x, f3) => (SC (Some a) (Some b) (Some x), skip_blanks f3)
                   end
               end
           end
  end.

(** file_util.h:31, 70. *)
Definition accepted (v : scanned) : res (option (N * N)) :=
  match sc_start v, sc_stop v with
  | Some a, Some b =>
      if (a <? b)%N then
        match sc_sel v with
        | Some x => Ok (if close x then Some (a, b) else None)
        | None => Fail FOob
        end
      else Ok None
  | _, _ => Fail FOob
  end.

(** file_util.h:69-77: [fuel] iterations; the lower and upper bounds of the queries. *)
Fixpoint range_loop (fuel : nat) (v : scanned) (f : list N) : res (list (N * N)) :=
  match fuel with
  | O => Fail FLoop
  | S fuel' =>
      match scan_line v f with
      | None => Ok []
      | Some (v', f') =>
          do o <- accepted v';
          do qs <- range_loop fuel' v' f';
          Ok (match o with Some q => q :: qs | None => qs end)
      end
  end.

(** file_util.h:56-81. *)
Definition read_range_queries (fuel : nat) (f : list N) : res (list (N * N)) :=
  range_loop fuel (SC None None None) f.

(** file_util.h:17-40: the search keys. *)
Definition read_lookup_queries (fuel : nat) (f : list N) : res (list N) :=
  do qs <- read_range_queries fuel f;
  Ok (map fst qs).
End Queries.
Arguments scanned V : clear implicits.
Arguments SC {V} _ _ _.
