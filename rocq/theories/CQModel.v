(* Model of benchmarks/CliqueCounting: Clique.h (counting, without peeling), induced_hybrid.h,
   intersect.h (HybridSpace_lw), induced_split.h, relabel.h.

   A space belongs to a worker and is reused for the iterations the worker runs, so labels and
   old_labels are passed from one iteration to the next; the iterations of one worker do not
   overlap (see DESIGN.md).  The array induced keeps one list per level; a call only writes the lists
   of deeper levels, so the model passes the list of the level as an argument.  use_base is taken to
   be true; otherwise the calls of base_f are left out.  The calls of base_f add to counters that
   belong to the worker (Clique.h:138-140) and are summed at the end (209-212). *)
From Coq Require Import Permutation.
From Verif Require Import Base ISModel ISSpec GBModel SFModel TCModel.

Notation calls := (list (nat * nat)).
(* labels is an array of char, compared after a conversion to size_t (40, 62, 96, 144, 165): a value
   of half = 128 or more comes back negative and is equal to no level; the stores keep the low bits *)
Definition has_label (half x k_idx : nat) : bool := (x mod (2 * half) <? half) && (x mod (2 * half) =? k_idx).
(* 28-30 and its like *)
Definition set_all {A} (f : nat -> A) (S : list nat) (x : A) : nat -> A := fold_left (fun f v => fset f v x) S f.

Section Rec.
  Variable half : nat.
  Variable edges : nat -> list nat.      (* induced_edges, induced_degs: row j *)
  Variable relabel : nat -> nat.
  (* the iterations of the inner parallel loop given to each worker; the first argument identifies
     the call *)
  Variable split : list nat -> list nat -> list (list nat).

  (* induced_hybrid.h:20-118 KCliqueDir_fast_hybrid_rec; r = k - k_idx, path = the vertices chosen *)
  Fixpoint hrec (r k_idx level : nat) (path : list nat) (labels : nat -> nat) (S : list nat) : nat * (nat -> nat) * calls :=
    match r with
    | 0 => (0, labels, [])                                                      (* k_idx < k *)
    | Datatypes.S r' =>
      if length S =? 0 then (0, labels, []) else                                (* 25 *)
      let L := set_all labels S k_idx in                                        (* 28-30 *)
      let out L v := filter (fun w => has_label half (L w) k_idx) (edges v) in
      if r' =? 0 then                                                           (* 32-53 *)
        (list_sum (map (fun v => length (out L v)) S),
         set_all L S (k_idx - 1),
         flat_map (fun v => map (fun w => (relabel w, 1)) (out L v) ++
                            (if 0 <? length (out L v) then [(relabel v, length (out L v))] else [])) S)
      else if (level <? k_idx) || (length S <? 2) then                          (* 55-75 *)
        let '(tot, L', cl) := fold_left (fun acc v =>
            let '(tot, L, cl) := acc in
            if r' <? length (out L v) then
              let '(c, L', cl') := hrec r' (k_idx + 1) level (v :: path) L (out L v) in
              (tot + c, L', cl ++ cl' ++ (if 0 <? c then [(relabel v, c)] else []))
            else acc) S (0, L, []) in
        (tot, set_all L' S (k_idx - 1), cl)
      else                                                                      (* 76-111 *)
        let group := fold_left (fun acc v =>
            let '(tot, L2, cl) := acc in
            if r' <? length (out L v) then
              let '(c, L2', cl') := hrec r' 1 0 (v :: path) L2 (out L v) in
              (tot + c, L2', cl ++ cl' ++ (if 0 <? c then [(relabel v, c)] else []))
            else acc) in
        let res := map (fun g => group g (0, (fun _ => 0), [])) (split path S) in
        (list_sum (map (fun x => fst (fst x)) res), set_all L S (k_idx - 1), flat_map (fun x => snd x) res)
    end.

  (* 123-182 KCliqueDir_fast_hybrid_rec_enum: base is the array handed to base_f; the result also has
     the values of base[0 .. k] of every call of base_f *)
  Variable k : nat.
  Fixpoint erec (r k_idx : nat) (labels base : nat -> nat) (S : list nat) : nat * (nat -> nat) * (nat -> nat) * list (list nat) :=
    match r with
    | 0 => (0, labels, base, [])
    | Datatypes.S r' =>
      if length S =? 0 then (0, labels, base, []) else
      let L := set_all labels S k_idx in
      let out L v := filter (fun w => has_label half (L w) k_idx) (edges v) in
      if r' =? 0 then
        let '(tot, base', made) := fold_left (fun acc v =>
            let '(tot, base, made) := acc in
            let b1 := fset base k_idx (relabel v) in
            let '(b2, made') := fold_left (fun am w =>
                let b := fset (fst am) k (relabel w) in (b, snd am ++ [map b (seq 0 (k + 1))])) (out L v) (b1, []) in
            (tot + length (out L v), b2, made ++ made')) S (0, base, []) in
        (tot, set_all L S (k_idx - 1), base', made)
      else
        let '(tot, L', base', made) := fold_left (fun acc v =>
            let '(tot, L, base, made) := acc in
            if r' <? length (out L v) then
              let '(c, L', base', made') := erec r' (k_idx + 1) L (fset base k_idx (relabel v)) (out L v) in
              (tot + c, L', base', made ++ made')
            else acc) S (0, L, base, []) in
        (tot, set_all L' S (k_idx - 1), base', made)
    end.
End Rec.

Section Setup.
  Variable dg : nat -> list nat.         (* the out-neighbours in DG *)
  (* the numbering of a list of neighbours: old_labels[ngh] = o + 1 *)
  Definition number (B : list nat) (old : nat -> nat) : nat -> nat :=
    fold_left (fun old p => fset old (fst p) (snd p + 1)) (combine B (seq 0 (length B))) old.
  (* the row of v: intersect.h:210-221 *)
  Definition row (old : nat -> nat) (v : nat) : list nat := flat_map (fun w => if 0 <? old w then [old w - 1] else []) (dg v).
  (* intersect.h:169-235 setup_labels with f = true: the rows, and old_labels afterwards *)
  Definition setup_labels (i : nat) (old : nat -> nat) : (nat -> list nat) * (nat -> nat) :=
    let old1 := number (dg i) old in
    (fun j => row old1 (nth j (dg i) 0), set_all old1 (dg i) 0).

  (* intersect.h:132-158: the two-pointer loop; the indices of the common neighbours *)
  Fixpoint common_from (i : nat) (A : list nat) : list nat -> list nat :=
    match A with
    | [] => fun _ => []
    | a :: A' => fix go (B : list nat) : list nat :=
        match B with
        | [] => []
        | b :: B' => if a =? b then i :: common_from (i + 1) A' B'
                     else if a <? b then common_from (i + 1) A' B else go B'
        end
    end.
  (* 95-166 setup_intersect with f = true *)
  Definition setup_intersect (i : nat) : nat -> list nat := fun j => common_from 0 (dg i) (dg (nth j (dg i) 0)).

  (* 255-332 setup_labels_edge with f = true: the vertices (relabel), the rows, old_labels afterwards.
     top is UINT_E_MAX *)
  Definition setup_labels_edge (top i l : nat) (old : nat -> nat) : list nat * (nat -> list nat) * (nat -> nat) :=
    let old1 := set_all old (dg i) top in
    let '(B, old2) := fold_left (fun acc ngh =>
        let '(B, old) := acc in
        if old ngh =? top then (B ++ [ngh], fset old ngh (length B + 1)) else acc) (dg l) ([], old1) in
    let old3 := fold_left (fun old ngh => if old ngh =? top then fset old ngh 0 else old) (dg i) old2 in
    (B, (fun j => row old3 (nth j B 0)), set_all old3 (dg l) 0).
  (* 336-411 setup_intersect_edge: only how long its last loop (404-406) runs matters: it increments
     j instead of p, so it ends only if there is no common neighbour *)
  Definition setup_intersect_edge (i l : nat) : option unit :=
    if length (common_from 0 (dg i) (dg l)) =? 0 then Some tt else None.
End Setup.

Section Count.
  Variable half : nat.
  Variable n : nat.
  Variable dg : nat -> list nat.
  Variable split : list nat -> list nat -> list (list nat).
  Variable label : bool.
  Variables k level : nat.

  Notation space := ((nat -> nat) * (nat -> nat))%type.    (* labels, old_labels *)
  (* the body of the loop, induced_hybrid.h:203-211 *)
  Definition vertex_body (sp : space) (i : nat) : space * (nat * calls) :=
    if length (dg i) =? 0 then (sp, (0, [])) else
    let '(edges, old') := if label then setup_labels dg i (snd sp) else (setup_intersect dg i, snd sp) in
    let '(c, L', cl) := hrec half edges (fun j => nth j (dg i) 0) split (k - 1) 1 level [i] (fst sp) (seq 0 (length (dg i))) in
    ((L', old'), (c, cl ++ (if 0 <? c then [(i, c)] else []))).
  (* the iterations one worker runs, in order *)
  Definition run_worker {A} (body : space -> A -> space * (nat * calls)) (items : list A) : nat * calls :=
    let '(_, tot, cl) := fold_left (fun acc x =>
        let '(sp, tot, cl) := acc in let '(sp', (c, cl')) := body sp x in (sp', tot + c, cl ++ cl')) items
        (((fun _ => 0), (fun _ => 0)), 0, []) in (tot, cl).
  Definition run_workers {A} (body : space -> A -> space * (nat * calls)) (ws : list (list A)) : nat * calls :=
    let res := map (run_worker body) ws in (list_sum (map fst res), flat_map snd res).
  (* 184-216 CountCliques, recursive_level <> 1; ws: the iterations of each worker *)
  Definition by_vertex (count : nat) (cl : calls) : Prop :=
    exists ws, Permutation (concat ws) (seq 0 n) /\ (count, cl) = run_workers vertex_body ws.

  (* 219-224 degs after the scan *)
  Definition degs : list nat := map (sum_before (fun i => length (dg i))) (seq 0 (n + 1)).
  (* parlay::binary_search with <=: the first entry above j *)
  Fixpoint first_above (l : list nat) (j : nat) : nat :=
    match l with [] => 0 | x :: l => if x <=? j then Datatypes.S (first_above l j) else 0 end.
  (* 238-244 *)
  Definition edge_of (j : nat) : nat * nat :=
    let i := first_above degs j - 1 in (i, nth (j - nth i degs 0) (dg i) 0).
  Variable top : nat.
  (* 237-251, label = true *)
  Definition edge_body (sp : space) (j : nat) : space * (nat * calls) :=
    let '(i, l) := edge_of j in
    let '(B, edges, old') := setup_labels_edge dg top i l (snd sp) in
    let '(c, L', cl) := hrec half edges (fun j => nth j B 0) split (k - 2) 1 0 [l; i] (fst sp) (seq 0 (length B)) in
    ((L', old'), (c, cl ++ (if 0 <? c then [(l, c); (i, c)] else []))).
  (* 218-257 CountCliques, recursive_level = 1; None: an iteration does not end *)
  Definition by_edge (res : option (nat * calls)) : Prop :=
    let m := sum_before (fun i => length (dg i)) n in
    if label then exists ws, Permutation (concat ws) (seq 0 m) /\ res = Some (run_workers edge_body ws)
    else (exists j, j < m /\ let '(i, l) := edge_of j in setup_intersect_edge dg i l = None) /\ res = None \/
         (forall j, j < m -> let '(i, l) := edge_of j in setup_intersect_edge dg i l <> None) /\ res = Some (0, []).

  (* induced_split.h:11-69 CountCliques; bsz: block_size, 50000; None: division by 0 at line 32.  Every
     iteration has its own space. *)
  Definition split_blocks (bsz : nat) : option (nat * nat) :=
    let tw := total_work n dg in
    let wpb := tw / (tw / bsz + 1) in
    if wpb =? 0 then None else Some (wpb, tw / wpb + 1).
  Definition by_block (bsz : nat) : option (nat * calls) :=
    match split_blocks bsz with
    | None => None
    | Some (wpb, nb) =>
        let one := fun i => snd (vertex_body ((fun _ => 0), (fun _ => 0)) i) in
        let is := flat_map (fun j => let a := bsearch (scanned n dg) (j * wpb) in
                                     seq a (bsearch (scanned n dg) ((j + 1) * wpb) - a)) (seq 0 nb) in
        Some (list_sum (map (fun i => fst (one i)) is), flat_map (fun i => snd (one i)) is)
    end.

  (* 259-291 CountCliquesEnum *)
  Definition enum_body (sp : space) (i : nat) : space * (nat * list (list nat)) :=
    if length (dg i) =? 0 then (sp, (0, [])) else
    let '(edges, old') := if label then setup_labels dg i (snd sp) else (setup_intersect dg i, snd sp) in
    let '(c, L', _, made) := erec half edges (fun j => nth j (dg i) 0) k (k - 1) 1 (fst sp) (fset (fun _ => 0) 0 i) (seq 0 (length (dg i))) in
    ((L', old'), (c, made)).
  Definition enum_worker (items : list nat) : nat * list (list nat) :=
    let '(_, tot, made) := fold_left (fun acc x =>
        let '(sp, tot, made) := acc in let '(sp', (c, m)) := enum_body sp x in (sp', tot + c, made ++ m)) items
        (((fun _ => 0), (fun _ => 0)), 0, []) in (tot, made).
  Definition enum_returns (count : nat) (made : list (list nat)) : Prop :=
    exists ws, Permutation (concat ws) (seq 0 n) /\ count = list_sum (map (fun w => fst (enum_worker w)) ws) /\
      Permutation made (flat_map (fun w => snd (enum_worker w)) ws).
End Count.

(* Clique.h:69-89 get_ordering: 2 = the vertices sorted by coreness, used as ranks; 3 = 54-67
   degreeOrderNodes; 4 = the identity.  Type 0 is in GOModel, type 1 is not modelled. *)
Definition ordering (n : nat) (outn : nat -> list nat) (core : nat -> nat) (order_type : nat) (rank : nat -> nat) : Prop :=
  match order_type with
  | 2 => exists o, Permutation o (seq 0 n) /\ (forall i j, i <= j < n -> core (nth i o 0) <= core (nth j o 0)) /\ forall v, rank v = nth v o 0
  | 3 => exists o r, Permutation o (seq 0 n) /\ (forall i j, i <= j < n -> length (outn (nth i o 0)) <= length (outn (nth j o 0))) /\
           rank_nodes o r /\ forall v, rank v = nth v r 0
  | 4 => forall v, rank v = v
  | _ => False
  end.
(* Clique.h:182-187 and relabel.h: DG *)
Section Direct.
  Variable n : nat.
  Variable outn : nat -> list nat.
  Variable K : nat.
  Variable rank : nat -> nat.
  Definition packs (u v : nat) : bool := (rank u <? rank v) && (K - 1 <=? length (outn u)) && (K - 1 <=? length (outn v)).
  Definition filtered (u : nat) : list nat := filter (packs u) (outn u).
  Fixpoint insert (x : nat) (l : list nat) : list nat :=
    match l with [] => [x] | y :: l' => if x <=? y then x :: l else y :: insert x l' end.
  Definition sorted (l : list nat) : list nat := fold_right insert [] l.
  (* relabel.h:141-214: vertex i becomes rank[i], with its neighbours renamed and sorted *)
  Definition relabelled (x : nat) : list nat :=
    flat_map (fun i => if rank i =? x then sorted (map rank (filter (packs i) (outn i))) else []) (seq 0 n).
  Definition direct (filt : bool) : nat -> list nat := if filt then filtered else relabelled.
End Direct.

Inductive method := ByVertex (level : nat) | ByEdge | ByBlock (level : nat).
Section Clique.
  Variables half top bsz thresh base : nat.
  Variable n : nat.
  Variable outn : nat -> list nat.
  (* 158-203 Clique: the number of cliques and the counts handed out by base_f; space_type 5 with
     recursive_level <> 1 (ByVertex), with recursive_level = 1 (ByEdge), space_type 6 (ByBlock) *)
  Definition clique_returns (K : nat) (rank : nat -> nat) (filt label : bool) (how : method) (res : option (nat * calls)) : Prop :=
    let dg := direct n outn K rank filt in
    if K =? 3 then
      exists count made, balanced_returns thresh base bsz n dg count made /\
        res = Some (count, flat_map (fun t => let '(a, b, c) := t in [(a, 1); (b, 1); (c, 1)]) made)
    else
      exists split, (forall p l, Permutation (concat (split p l)) l) /\
      match how with
      | ByVertex level => exists count cl, by_vertex half n dg split label (K - 1) level count cl /\ res = Some (count, cl)
      | ByEdge => by_edge half n dg split label (K - 1) top res
      | ByBlock level => res = by_block half n dg split label (K - 1) level bsz
      end.
  (* 138-140, 209-212, 223-230: the count of vertex v, summed over the workers and moved back to the
     original vertex *)
  Definition per_vert (rank : nat -> nat) (filt : bool) (cl : calls) (v : nat) : nat :=
    list_sum (map snd (filter (fun p => fst p =? (if filt then v else rank v)) cl)).
  (* 259-296 Clique_enum *)
  Definition clique_enum_returns (K : nat) (rank : nat -> nat) (filt label : bool) (count : nat) (made : list (list nat)) : Prop :=
    enum_returns half n (direct n outn K rank filt) label (K - 1) count made.
End Clique.
