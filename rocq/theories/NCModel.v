(* Model of nghCount (gbbs/interface.h:40-63) and edgeMapCount (gbbs/edge_map_reduce.h:98-221, and
   418-528 in the struct EdgeMap) on the histogram model of HGModel.

   The vertex subset is the list of its members; conversion between its representations is C14.
   nghs v is the list of v's in-neighbours if the flag in_edges is given and of its
   out-neighbours otherwise.  apply_f is a function of its argument; its own effects are those of
   the list of its calls.  size_t does not overflow. *)
From Verif Require Import Base GBModel SFModel HTModel HTSpec HGModel.

(* what a call returns: the members of the resulting subset with their data, and the table *)
Inductive outcome := Returns (res : list kv) (t : table nat) | Invalid.

(* the parameters of histogram: hash functions, thresholds, processing orders, junk and sample *)
Record hist_params := { h_hash : nat -> nat; h_light : nat -> nat; h_nb : nat; h_width : nat; h_seqthr : nat; h_medthr : nat; h_one : bool;
  h_csthr : nat; h_csnb : nat; h_csorder : list nat; h_junk : nat; h_cjunk : nat; h_o3 : list nat; h_o5 : list nat; h_sample : list nat }.

Section NC.
  Variable n : nat.
  Variable nghs : nat -> list nat.
  Variable cond : nat -> bool.
  Variable f : kv -> option kv.
  Variable empty : nat.                (* the key of ht.empty *)

  (* edge_map_reduce.h:98-125 and 420-445 edgeMapCount_sparse *)
  Definition count_sparse (h : hist_params) (shuffle : list (nat * nat) -> list (nat * nat)) (junk : nat) (vs : list nat) (t : table nat) : outcome :=
    match vs with
    | [] => Returns [] t
    | _ => match induced nghs cond empty vs shuffle junk with
           | None => Invalid
           | Some keys =>
               match histogram (h_hash h) (h_light h) (h_nb h) (h_width h) f empty (h_seqthr h) (h_medthr h) (h_one h)
                       (h_csthr h) (h_csnb h) (h_csorder h) (h_junk h) (h_cjunk h) (h_o3 h) (h_o5 h) (h_sample h) keys t with
               | None => Invalid
               | Some (res, t') => Returns res t'
               end
           end
    end.

  (* 144-146, 463-465 count_f and neighbors.count(count_f) *)
  Definition dense_count (vs : list nat) (i : nat) : nat :=
    length (filter (fun v => existsb (Nat.eqb v) vs) (nghs i)).
  (* the calls of apply_f: 148-163 and 169-180 (cond), 467-480 and 483-500 (cond always true); the
     iterations in any order *)
  Definition dense_calls (order vs : list nat) : list kv :=
    match vs with
    | [] => []
    | _ => flat_map (fun i => if cond i then let c := dense_count vs i in if 0 <? c then [(i, c)] else [] else []) order
    end.
  (* the members of the dense subset out with their data *)
  Definition dense_members (out : nat -> bool * nat) : list kv :=
    flat_map (fun i => if fst (out i) then [(i, snd (out i))] else []) (seq 0 n).
  (* 482-505 in EdgeMap: out is initialised (with false and 0) *)
  Definition em_out (order vs : list nat) : nat -> bool * nat :=
    fold_left (fun out i => let c := dense_count vs i in
      if 0 <? c then match f (i, c) with Some q => fset out i (true, snd q) | None => fset out i (false, snd (out i)) end
      else fset out i (false, snd (out i))) order (fun _ => (false, 0)).
  (* 447-508 EdgeMap::edgeMapCount_dense *)
  Definition em_dense (no_output : bool) (order vs : list nat) (t : table nat) : outcome :=
    match vs with
    | [] => Returns [] t
    | _ => Returns (if no_output then [] else dense_members (em_out order vs)) t
    end.
  (* 166-189: out starts with what the memory holds; nothing is written for i with cond_f(i)
     false; None: *applied_val without a value *)
  Fixpoint free_out (order vs : list nat) (out : nat -> bool * nat) : option (nat -> bool * nat) :=
    match order with
    | [] => Some out
    | i :: order' =>
        if cond i
        then let c := dense_count vs i in
             if 0 <? c then match f (i, c) with Some q => free_out order' vs (fset out i (true, snd q)) | None => None end
             else free_out order' vs (fset out i (false, snd (out i)))
        else free_out order' vs out
    end.
  (* 127-190 edgeMapCount_dense *)
  Definition free_dense (no_output : bool) (mem : nat -> bool * nat) (order vs : list nat) (t : table nat) : outcome :=
    match vs with
    | [] => Returns [] t
    | _ => if no_output then Returns [] t
           else match free_out order vs mem with Some out => Returns (dense_members out) t | None => Invalid end
    end.

  (* 511-526: the direction EdgeMap::edgeMapCount chooses.  threshold: None is -1; m is G.m *)
  Definition em_chooses_dense (m : nat) (threshold : option nat) (vs : list nat) : bool :=
    match threshold with None => m / 20 | Some k => k end <? length vs + list_sum (map (fun v => length (nghs v)) vs).
  (* 192-221: nghCount calls this with threshold -1.  The degrees that are added up are those of the
     vertices 0, 1, ..., vs.size()-1 (degree_f uses i, not vs.vtx(i)) *)
  Definition free_chooses_dense (no_dense dense_only : bool) (m : nat) (vs : list nat) : bool :=
    if no_dense then false else if dense_only then true
    else m / 20 <? length vs + list_sum (map (fun i => length (nghs i)) (seq 0 (length vs))).
  Definition nghCount (h : hist_params) shuffle junk (no_dense dense_only no_output : bool) (mem : nat -> bool * nat) (order : list nat) (m : nat) (vs : list nat) (t : table nat) : outcome :=
    if free_chooses_dense no_dense dense_only m vs then free_dense no_output mem order vs t else count_sparse h shuffle junk vs t.
End NC.

(* 509-528 EdgeMap::edgeMapCount: the condition always holds *)
Definition em_count n nghs f empty (h : hist_params) shuffle junk (no_output : bool) (order : list nat) (m : nat) (threshold : option nat) (vs : list nat) (t : table nat) : outcome :=
  if em_chooses_dense nghs m threshold vs then em_dense n nghs f no_output order vs t else count_sparse nghs (fun _ => true) f empty h shuffle junk vs t.
