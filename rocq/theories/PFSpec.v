(* Specification for C80. *)
From Verif Require Import Base UFSpec FRSpec CTSpec RSModel.
Unset Strict Implicit.

(* what the rounds may start from: the recorded edges are edges of the graph and form a forest
   whose trees are the classes of equal labels, and the edge recorded for v is in the class of v *)
Record labelled_forest (n : nat) (outn : nat -> list nat) (P : nat -> nat) (Ed : nat -> option (nat * nat)) : Prop := {
  l_edges : incl (recorded n Ed) (pairs n outn);
  l_forest : forest (unweighted (recorded n Ed));
  l_trees : forall x y, x < n -> y < n -> (connected (recorded n Ed) x y <-> P x = P y);
  l_owner : forall v x y, v < n -> Ed v = Some (x, y) -> P x = P v }.
