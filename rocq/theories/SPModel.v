(* Model of work-efficient spanning forest: benchmarks/SpanningForest/SDB14/SpanningForest.h and
   the renaming of the edge table in contract_sf.h.  Decomposition and contraction are those of
   CTModel; the values in the table are edges of the input graph. *)
From Coq Require Import Permutation.
From Verif Require Import Base VSModel EMModel FAModel GBModel GBSpec HTModel HTSpec SFModel LDModel CTModel.

Section SF.
  Variable hash : nat -> nat.
  Variable sort : list (edge unit) -> list (edge unit).
  Variable incs : nat -> list nat.
  Notation pair := (nat * nat)%type.
  Definition no_edge : pair := (0, 0).

  (* contract_sf.h:226-241: every entry under its new name; the key (x, y), x <= y < kk, is x * kk + y *)
  Definition new_key (kk x y : nat) : nat := Nat.min x y * kk + Nat.max x y.
  Definition rename_calls (k : nat) (es : list (nat * nat * pair)) : list (nat * pair) :=
    map (fun e => (new_key (flags es k) (flags es (fst (fst e))) (flags es (snd (fst e))), snd e)) es.
  Inductive renamed (k : nat) (t : table pair) (es : list (nat * nat * pair)) : table pair -> Prop :=
  | rename sched :
      let s := exec no_edge (fun _ v => v) None (rename_calls k es) sched (start hash (new_table no_edge (table_for (length t))) (rename_calls k es)) in
      finished s -> renamed k t es (tab s).
  (* SpanningForest.h:166-173: find on the renamed table.  The probe sequence of find visits each
     cell at most once before it ends (SPProofs.mapping_found: it does) *)
  Definition new_edge_mapping (kk : nat) (t : table pair) (u v : nat) : pair :=
    match find hash no_edge t (new_key kk u v) (length t) no_edge with
    | Some e => e
    | None => no_edge
    end.
  (* lines 137-147: the tree edges of the level, as edges of the input *)
  Definition tree_edges (n : nat) (par : nat -> option nat) : list pair :=
    filter (fun e => negb (fst e =? snd e)) (map (fun i => (match par i with Some p => p | None => S n end, i)) (seq 0 n)).
  Definition map_edges (edge_mapping : nat -> nat -> pair) (l : list pair) : list pair := map (fun e => edge_mapping (fst e) (snd e)) l.

  (* lines 117-180; the sequence of edges.size() default-constructed edges is line 162 *)
  Inductive sf_impl (permute : bool) (edge_mapping : nat -> nat -> pair) : nat -> (nat -> list nat) -> nat -> list pair -> Prop :=
  | sf_last n outn m clusters k par t es mapping GC t2 : decomposes incs permute n outn m clusters k par ->
      contracts no_edge hash sort n outn edge_mapping clusters k t es mapping GC -> renamed k t es t2 -> gm GC = 0 ->
      let edges := map_edges edge_mapping (tree_edges n par) in
      sf_impl permute edge_mapping n outn m (repeat (0, 0) (length edges) ++ edges)
  | sf_more n outn m clusters k par t es mapping GC t2 rec_edges : decomposes incs permute n outn m clusters k par ->
      contracts no_edge hash sort n outn edge_mapping clusters k t es mapping GC -> renamed k t es t2 -> gm GC <> 0 ->
      sf_impl true (new_edge_mapping (flags es k) t2) (gn GC) (csr_out GC) (gm GC) rec_edges ->
      sf_impl permute edge_mapping n outn m (rec_edges ++ map_edges edge_mapping (tree_edges n par)).
  (* lines 184-191 *)
  Definition spanning_forest_returns (permute : bool) (n : nat) (outn : nat -> list nat) (m : nat) (result : list pair) : Prop :=
    sf_impl permute (fun u v => (u, v)) n outn m result.
End SF.
