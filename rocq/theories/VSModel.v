(* Model of gbbs/vertex_subset.h: vertexSubsetData<data> and the functions on it.

   The specialisation for data = gbbs::empty (lines 194-347) has the same members
   with the data component left out; it is the instance A = unit.  parlay's
   pack_index_and_data, pack, reduce are modelled by their specification (filter with
   indices, filter, sum).  A parallel_for whose iterations touch different cells is a
   sequential loop.  abort() is the outcome None.  sum_out_degrees is a cache of the
   edgeMap code and is left out. *)
From Verif Require Import Base.

Section VS.
  Variable A : Type.
  Variable dflt : A.          (* value of a default-constructed data element *)

  (* vertex_subset.h:186-190; a sequence of length 0 is "not present" *)
  Record vset := { vn : nat; vm : nat; vs : list (nat * A); vd : list (bool * A); isDense : bool }.

  (* lines 62-67 *)
  Definition vs_empty (n : nat) : vset := {| vn := n; vm := 0; vs := []; vd := []; isDense := false |}.
  (* lines 79-84 *)
  Definition vs_sparse (n : nat) (l : list (nat * A)) : vset :=
    {| vn := n; vm := length l; vs := l; vd := []; isDense := false |}.
  (* lines 87-92 *)
  Definition vs_dense_m (n m : nat) (d : list (bool * A)) : vset :=
    {| vn := n; vm := m; vs := []; vd := d; isDense := true |}.
  (* lines 96-104 *)
  Definition count_true (d : list (bool * A)) : nat :=
    fold_right (fun (x : bool * A) c => (if fst x then 1 else 0) + c) 0 d.
  Definition vs_dense (n : nat) (d : list (bool * A)) : vset := vs_dense_m n (count_true d) d.

  (* parlay::pack_index_and_data *)
  Fixpoint pack_index_and_data (i : nat) (d : list (bool * A)) : list (nat * A) :=
    match d with
    | [] => []
    | (b, x) :: d' => if b then (i, x) :: pack_index_and_data (S i) d' else pack_index_and_data (S i) d'
    end.

  (* lines 157-172 toSparse *)
  Definition toSparse (V : vset) : option vset :=
    if (length (vs V) =? 0) && (0 <? vm V) then
      let s := pack_index_and_data 0 (firstn (vn V) (vd V)) in
      if length s =? vm V
      then Some {| vn := vn V; vm := vm V; vs := s; vd := vd V; isDense := false |}
      else None
    else Some {| vn := vn V; vm := vm V; vs := vs V; vd := vd V; isDense := false |}.

  (* lines 175-184 toDense *)
  Definition write_true (d : list (bool * A)) (e : nat * A) : list (bool * A) :=
    lset d (fst e) (true, snd e).
  Definition toDense (V : vset) : vset :=
    let d := if length (vd V) =? 0
             then fold_left write_true (firstn (vm V) (vs V)) (repeat (false, dflt) (vn V))
             else vd V in
    {| vn := vn V; vm := vm V; vs := vs V; vd := d; isDense := true |}.

  (* lines 126-128, 148-155 *)
  Definition isIn (V : vset) (v : nat) : bool := fst (nth v (vd V) (false, dflt)).
  Definition ithData (V : vset) (v : nat) : A := snd (nth v (vd V) (false, dflt)).
  Definition size (V : vset) : nat := vm V.

  (* lines 353-391 vertexMap: the calls f(v, data), in index order (they run in parallel) *)
  Definition vertexMap_calls (V : vset) : list (nat * A) :=
    if isDense V
    then flat_map (fun i => if isIn V i then [(i, ithData V i)] else []) (seq 0 (vn V))
    else map (fun i => nth i (vs V) (0, dflt)) (seq 0 (vm V)).
End VS.
Arguments vs_empty {A} n.

Section Filter.
  Variable A : Type.
  Variable dflt : A.
  (* lines 393-412 vertexFilter_dense; result without data *)
  Definition vertexFilter_dense (V : vset A) (filter : nat -> A -> bool) : vset unit :=
    let V := toDense dflt V in
    vs_dense (vn V) (map (fun i => (if isIn dflt V i then filter i (ithData dflt V i) else false, tt))
                         (seq 0 (vn V))).
  (* lines 414-444 vertexFilter_sparse *)
  Definition vertexFilter_sparse (V : vset A) (filter : nat -> A -> bool) : option (vset unit) :=
    if vm V =? 0 then Some (vs_empty (vn V))
    else match toSparse V with
         | None => None
         | Some V =>
             let vtx := fun i => nth i (vs V) (0, dflt) in
             let kept := List.filter (fun i => filter (fst (vtx i)) (snd (vtx i))) (seq 0 (vm V)) in
             Some (vs_sparse (vn V) (map (fun i => (fst (vtx i), tt)) kept))
         end.

  (* lines 449-461 vertexFilter; flags.h *)
  Inductive vf_flags := default_flags | dense_only | no_dense.
  Definition vertexFilter (V : vset A) (filter : nat -> A -> bool) (fl : vf_flags) : option (vset unit) :=
    match fl with
    | dense_only => Some (vertexFilter_dense V filter)
    | no_dense => vertexFilter_sparse V filter
    | default_flags => if isDense V then Some (vertexFilter_dense V filter)
                       else vertexFilter_sparse V filter
    end.
End Filter.

(* lines 463-485 add_to_vsubset (vertexSubset only) *)
Definition add_to_vsubset (V : vset unit) (new_verts : list nat) : vset unit :=
  if isDense V then
    {| vn := vn V; vm := vm V + length new_verts; vs := vs V;
       vd := fold_left (fun d v => lset d v (true, tt)) new_verts (vd V); isDense := true |}
  else
    let vs_size := vm V in
    let new_size := length new_verts + vs_size in
    {| vn := vn V; vm := new_size;
       vs := map (fun i => if i <? vs_size then nth i (vs V) (0, tt) else (nth (i - vs_size) new_verts 0, tt))
                 (seq 0 new_size);
       vd := vd V; isDense := false |}.
