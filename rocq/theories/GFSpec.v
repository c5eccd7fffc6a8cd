(* Specification vocabulary for the graph files. *)
From Verif Require Import Base CodecModel CodecSpec PDModel PDSpec AMModel AMSpec GFModel.
From Coq Require Import NArith ZArith.
Local Open Scope N_scope.

(* a memory that holds the file from address 0 on, and anything after it *)
Definition file_at (m : mem) (file : list N) : Prop :=
  forall i, (i < length file)%nat -> m i = nth i file 0.

(* the adjacency lists of a graph with 32-bit vertex ids: strictly increasing lists, each
   of a size the codec can handle *)
Definition graph_ok (aw : awty) (g : list (list edge)) : Prop :=
  N.of_nat (length g) <= two32 /\
  Forall (fun l => adj_ok (weights_of aw) l /\ 18 * N.of_nat (length l) < two32) g.

(* adjacency lists of 32-bit ids with 32-bit weights (or none); any order, any multiplicity *)
Definition plain_ok (weighted : bool) (g : list (list edge)) : Prop :=
  N.of_nat (length g) <= two32 /\
  Forall (fun l => N.of_nat (length l) < two32 /\
    Forall (fun e => fst e < two32 /\
      if weighted then (-2147483648 <= snd e < 2147483648)%Z else snd e = 0%Z) l) g.

Definition edge_count (g : list (list edge)) : nat := list_sum (map (@length edge) g).

(* what every reader of a compressed vertex v (its edges start at edges + offset) sees: the
   list l, in blocks of B *)
Definition reads_as (B : nat) (aw : awty) (m : mem) (edges : nat) (v : vdata) (src : N) (l : list edge) : Prop :=
  let a := (edges + v_offset v)%nat in
  v_degree v = length l /\
  am_iter B aw m a src (v_degree v) = Some l /\
  (forall t, am_decode_weighted B aw t m a src (v_degree v) = Some (upto t 0 l)) /\
  option_map (@concat _) (am_decode_unweighted B aw (fun _ _ _ => true) m a src (v_degree v))
    = Some (upto (fun _ _ _ => true) 0 l) /\
  am_get_num_blocks B m a (v_degree v) = ceil_div (length l) B /\
  (forall i t, (i < ceil_div (length l) B)%nat ->
     am_decode_block B aw t m a src (v_degree v) i = Some (upto t (i * B) (block B i l))).

(* a graph read from a compressed file: n vertices, k edges, and the adjacency lists g *)
Definition is_graph (B : nat) (aw : awty) (m : mem) (G : loaded) (k : nat) (g : list (list edge)) : Prop :=
  l_n G = length g /\ l_m G = k /\ length (l_vs G) = length g /\
  forall i v, nth_error (l_vs G) i = Some v -> reads_as B aw m (l_edges G) v (N.of_nat i) (nth i g []).

(* a graph read from a binary file *)
Definition is_binary (weighted : bool) (m : mem) (G : loaded) (k : nat) (g : list (list edge)) : Prop :=
  l_n G = length g /\ l_m G = k /\ map (nghs_of weighted m (l_edges G)) (l_vs G) = g.

(* the orders in which the vertices of each batch of size vertices are processed *)
Definition batch_orders (size n : nat) (ords : nat -> list nat) : Prop :=
  forall b, Permutation.Permutation (ords b) (seq (b * size) (Nat.min size (n - b * size))).
