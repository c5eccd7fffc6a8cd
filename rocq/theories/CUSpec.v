(* Specification vocabulary for C72: renumbered clusterings, hubs.  A clustering lists the cluster of every
   vertex; mx (UINT_E_MAX) stands for no cluster. *)
From Verif Require Import Base.

(* out renumbers the clusters of cl with 0 .. k-1, each used, in the same order; other vertices stay so *)
Record renumbers (mx : nat) (cl out : list nat) (k : nat) : Prop := {
  rn_length : length out = length cl;
  rn_none : forall i, i < length cl -> (nth i out mx = mx <-> nth i cl mx = mx);
  rn_range : forall i, i < length cl -> nth i cl mx <> mx -> nth i out mx < k;
  rn_order : forall i j, i < length cl -> j < length cl -> nth i cl mx <> mx -> nth j cl mx <> mx -> (nth i out mx < nth j out mx <-> nth i cl mx < nth j cl mx);
  rn_used : forall c, c < k -> exists i, i < length cl /\ nth i cl mx <> mx /\ nth i out mx = c }.

(* two neighbours in different clusters *)
Definition hub (mx : nat) (cl : list nat) (nghs : list nat) : Prop :=
  exists u v, In u nghs /\ In v nghs /\ nth u cl mx <> mx /\ nth v cl mx <> mx /\ nth u cl mx <> nth v cl mx.
