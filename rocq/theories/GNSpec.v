(* Specification vocabulary for C87. *)
From Coq Require Import NArith.
From Verif Require Import Base.

(* the endpoints of a list of edges, numbered in order *)
Definition endpoint (es : list (nat * nat)) (k : nat) : nat :=
  let e := nth (k / 2) es (0, 0) in if k mod 2 =? 0 then fst e else snd e.
(* vertices connected by edges of the list *)
Inductive joined (es : list (nat * nat)) : nat -> nat -> Prop :=
| j_refl u : joined es u u
| j_edge u v w : joined es u v -> In (v, w) es \/ In (w, v) es -> joined es u w.
