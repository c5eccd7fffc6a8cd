(* Model of gbbs/helpers/parse_command_line.h commandLine.

   A word of the command line is the list of its bytes (without the terminating zero), argv the list of the words, argc its
   length.  The argument i of getArgument is taken to be at least 0. *)
From Coq Require Import ZArith.
From Verif Require Import Base.

Definition word := list nat.
Definition word_eqb (a b : word) : bool := if list_eq_dec Nat.eq_dec a b then true else false.

(* the outcome of a call: a value, abort() through badArgument (44-47), or undefined behaviour *)
Inductive outcome (A : Type) := Value (a : A) | Abort | Undef.
Arguments Value {A} a.
Arguments Abort {A}.
Arguments Undef {A}.
Definition obind {A B} (x : outcome A) (f : A -> outcome B) : outcome B := match x with Value a => f a | Abort => Abort | Undef => Undef end.
(* argv[i] *)
Definition at_arg (argv : list word) (i : nat) : outcome word := match nth_error argv i with Some w => Value w | None => Undef end.

(* the C library's atoi and atol: white space, an optional sign, decimal digits up to the first other byte *)
Definition is_space (c : nat) : bool := (c =? 32) || ((9 <=? c) && (c <=? 13)).
Definition is_digit (c : nat) : bool := (48 <=? c) && (c <=? 57).
Fixpoint skip_spaces (w : word) : word := match w with c :: r => if is_space c then skip_spaces r else w | [] => [] end.
Fixpoint read_digits (acc : Z) (w : word) : Z :=
  match w with c :: r => if is_digit c then read_digits (10 * acc + Z.of_nat (c - 48)) r else acc | [] => acc end.
Definition read_number (w : word) : Z :=
  match skip_spaces w with
  | c :: r => if c =? 45 then (- read_digits 0 r)%Z else if c =? 43 then read_digits 0 r else read_digits 0 (c :: r)
  | [] => 0%Z
  end.
(* the behaviour is undefined if the number does not fit: 32-bit int, 64-bit long *)
Definition fits (bits : Z) (z : Z) : bool := ((- 2 ^ (bits - 1) <=? z) && (z <? 2 ^ (bits - 1)))%Z.
Definition atoi (w : word) : outcome Z := let z := read_number w in if fits 32 z then Value z else Undef.
Definition atol (w : word) : outcome Z := let z := read_number w in if fits 64 z then Value z else Undef.

Section CommandLine.
  Variable argv : list word.
  Definition argc : nat := length argv.

  (* 51-54 *)
  Definition getArgument (i : nat) : outcome word := if argc <? 2 + i then Abort else at_arg argv (argc - 1 - i).
  (* 57-60 *)
  Definition IOFileNames : outcome (word * word) :=
    if argc <? 3 then Abort else obind (at_arg argv (argc - 2)) (fun a => obind (at_arg argv (argc - 1)) (fun b => Value (a, b))).
  (* 62-65 *)
  Definition sizeAndFileName : outcome (Z * word) :=
    if argc <? 3 then Abort
    else obind (at_arg argv (argc - 2)) (fun a => obind (atoi a) (fun z => obind (at_arg argv (argc - 1)) (fun b => Value (z, b)))).

  (* the loops of 68-69, 74-75, 81-82, 87-88, 97-98, 107-108: n iterations from index i, left at the first word equal to o *)
  Fixpoint scan (o : word) (n i : nat) : outcome (option nat) :=
    match n with
    | 0 => Value None
    | S n' => obind (at_arg argv i) (fun a => if word_eqb a o then Value (Some i) else scan o n' (S i))
    end.
  (* 67-71 *)
  Definition getOption (o : word) : outcome bool := obind (scan o (argc - 1) 1) (fun r => Value (match r with Some _ => true | None => false end)).
  (* the shared shape of 73-116: the word argv[i + 1] is used by f; d if the option is not found *)
  Definition with_value {A} (o : word) (f : word -> outcome A) (d : A) : outcome A :=
    obind (scan o (argc - 1 - 1) 1) (fun r => match r with Some i => obind (at_arg argv (i + 1)) f | None => Value d end).
  (* 73-77; NULL is None *)
  Definition getOptionValue (o : word) : outcome (option word) := with_value o (fun w => Value (Some w)) None.
  (* 79-84 *)
  Definition getOptionValueOr (o d : word) : outcome word := with_value o (fun w => Value w) d.
  (* 86-93 *)
  Definition getOptionIntValue (o : word) (d : Z) : outcome Z := with_value o (fun w => atoi w) d.
  (* 95-103: the long is returned as size_t *)
  Definition getOptionLongValue (o : word) (d : Z) : outcome Z := with_value o (fun w => obind (atol w) (fun r => Value (r mod 2 ^ 64)%Z)) d.
  (* 105-116: sscanf's answer is a parameter: EOF for a word without any byte but white space, no match (0 conversions, val
     stays uninitialised and is returned), or a number *)
  Inductive scanned (D : Type) := ScanEOF | ScanNone | ScanNum (d : D).
  Definition getOptionDoubleValue {D : Type} (sscanf : word -> scanned D) (o : word) (d : D) : outcome D :=
    with_value o (fun w => match sscanf w with ScanEOF _ => Abort | ScanNone _ => Undef | ScanNum x => Value x end) d.
End CommandLine.
