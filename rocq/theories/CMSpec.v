(* Specification of C91: command lines. *)
From Coq Require Import ZArith.
From Verif Require Import Base.

(* v is the value of option o: the word after the first o that is neither the program name nor the last word *)
Definition has_value (argv : list (list nat)) (o v : list nat) : Prop :=
  exists prog pre post, argv = prog :: pre ++ o :: v :: post /\ ~ In o pre.
(* the option is given without a value, or not at all *)
Definition no_value (argv : list (list nat)) (o : list nat) : Prop := ~ In o (removelast (tl argv)).

(* the bytes '0' ... '9' as a decimal number *)
Fixpoint decimal (ds : list nat) : Z := match ds with [] => 0%Z | c :: r => (Z.of_nat (c - 48) * 10 ^ Z.of_nat (length r) + decimal r)%Z end.
Definition digit (c : nat) : Prop := 48 <= c <= 57.
Definition space (c : nat) : Prop := c = 32 \/ 9 <= c <= 13.
(* w starts with a number, after white space, and z is that number *)
Inductive starts_with : list nat -> Z -> Prop :=
| number_is : forall sp sign ds rest, Forall space sp -> Forall digit ds -> ds <> [] -> (forall c r, rest = c :: r -> ~ digit c) ->
    sign = [] \/ sign = [43] \/ sign = [45] ->
    starts_with (sp ++ sign ++ ds ++ rest) (if list_eq_dec Nat.eq_dec sign [45] then (- decimal ds)%Z else decimal ds).
(* the number at the start of w, 0 if there is none *)
Definition number_of (w : list nat) (z : Z) : Prop := starts_with w z \/ ((forall y, ~ starts_with w y) /\ z = 0%Z).
