(* Model of gbbs/intersect.h.

   Neighbour lists are lists of ids (nghA[i] without its weight); a callback call f(a, b, x)
   is recorded as x, since a and b are the fixed endpoints.  parlay::binary_search(B, a, less)
   is modelled by its specification on sorted input: the first index whose element is not
   below a.  Index loops have fuel; None = fuel exhausted or an access out of bounds (both
   excluded by theorem). *)
From Verif Require Import Base.

Section Seq.
  Variable A B : list nat.

  (* intersect.h:49-68 intersect_f; the body of the while loop is the same in
     intersect (lines 31-46, no call of f) and seq_merge_full (lines 73-95) *)
  Fixpoint isect_loop (fuel i j ans : nat) (calls : list nat) : option (nat * list nat) :=
    if (i <? length A) && (j <? length B) then
      match fuel with
      | 0 => None
      | S fuel =>
          match nth_error A i, nth_error B j with
          | Some a, Some b =>
              if a =? b then isect_loop fuel (S i) (S j) (S ans) (calls ++ [a])
              else if a <? b then isect_loop fuel (S i) j ans calls
              else isect_loop fuel i (S j) ans calls
          | _, _ => None
          end
      end
    else Some (ans, calls).
  Definition intersect_f : option (nat * list nat) := isect_loop (length A + length B) 0 0 0 [].
  Definition intersect : option nat := option_map fst intersect_f.
End Seq.

(* parlay::binary_search by specification *)
Fixpoint bsearch (l : list nat) (v : nat) : nat :=
  match l with [] => 0 | x :: l' => if x <? v then S (bsearch l' v) else 0 end.

(* intersect.h:97-112 seq_merge *)
Fixpoint seq_merge_from (B As : list nat) (ct : nat) (calls : list nat) : option (nat * list nat) :=
  match As with
  | [] => Some (ct, calls)
  | a :: As' =>
      let mB := bsearch B a in
      if mB <? length B then
        match nth_error B mB with
        | None => None
        | Some b => if a =? b then seq_merge_from B As' (S ct) (calls ++ [a]) else seq_merge_from B As' ct calls
        end
      else seq_merge_from B As' ct calls
  end.
Definition seq_merge (A B : list nat) : option (nat * list nat) := seq_merge_from B A 0 [].

(* the callback calls of a fork-join computation *)
Inductive calls := Run (l : list nat) | ParDo (l r : calls).

(* intersect.h:114-134 merge, for any sequential threshold and binary-search base;
   A.cut(i, j) is the slice [i, j) *)
Section Merge.
  Variable seq_merge_thresh bs_merge_base : nat.
  Fixpoint merge (fuel : nat) (A B : list nat) : option (nat * calls) :=
    match fuel with
    | 0 => None
    | S fuel =>
        let nA := length A in
        let nB := length B in
        let nR := nA + nB in
        if nR <? seq_merge_thresh then option_map (fun r => (fst r, Run (snd r))) (intersect_f A B)
        else if nB <? nA then merge fuel B A
        else if nA <? bs_merge_base then option_map (fun r => (fst r, Run (snd r))) (seq_merge A B)
        else
          let mA := nA / 2 in
          match nth_error A mA with
          | None => None
          | Some pivot =>
              let mB := bsearch B pivot in
              match merge fuel (firstn mA A) (firstn mB B), merge fuel (skipn mA A) (skipn mB B) with
              | Some (m_left, cl), Some (m_right, cr) => Some (m_left + m_right, ParDo cl cr)
              | _, _ => None
              end
          end
    end.
End Merge.

(* intersect.h:136-150 intersect_f_par, with the constants of lines 70-71 left as
   parameters; two levels of fuel per element cover the swap of the arguments *)
Definition intersect_f_par (thresh base : nat) (A B : list nat) : option (nat * calls) :=
  merge thresh base (2 * (length A + length B) + 2) A B.
