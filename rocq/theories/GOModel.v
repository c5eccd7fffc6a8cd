(* Model of the degeneracy orders: benchmarks/DegeneracyOrder/GoodrichPszona11/DegeneracyOrder.h
   (DegeneracyOrder_intsort) and BarenboimElkin08/DegeneracyOrder.h.

   Degrees are uintE, so subtraction is modulo null + 1.  integer_sort_inplace by its specification
   without stability: some permutation sorted by the key.  edgeMapCount_sparse as in KCModel. *)
From Coq Require Import Permutation Sorted.
From Verif Require Import Base KCModel TCModel.

(* Goodrich: 77-78; epsilon = a / b, the rounding of the doubles left out *)
Definition peel_size (n a b : nat) : nat := Nat.max ((n * a + (2 * b + a) - 1) / (2 * b + a)) 1.
(* Barenboim-Elkin: 19-20; alpha * epsilon = a / b, the rounding of the doubles left out *)
Definition cutoff_of (a b : nat) : nat := Nat.max ((a + b - 1) / b) 1.

Section GO.
  Variable n : nat.
  Variable outn : nat -> list nat.
  Variable null : nat.
  Definition sorted_by (key : nat -> nat) (l : list nat) : Prop := StronglySorted (fun u v => key u <= key v) l.
  (* apply_f for every counted vertex; every call reads and writes only D[v] *)
  Definition drop (D : nat -> nat) (res : list (nat * nat)) : nat -> nat :=
    fold_left (fun D p => fset D (fst p) (usub null (D (fst p)) (snd p))) res D.

  (* Goodrich: 86-110 the loop: start, sortD, D, and sortD at the end *)
  Inductive gp_loop (ns : nat) : nat -> list nat -> (nat -> nat) -> list nat -> Prop :=
  | gp_done : forall start s D, n <= start -> gp_loop ns start s D s
  | gp_round : forall start s D srt res out, start < n ->
      Permutation srt (skipn start s) -> sorted_by D srt ->
      counted (flat_map outn (firstn (Nat.min (ns + start) n - start) srt)) res ->
      gp_loop ns (start + ns) (firstn start s ++ srt) (drop D res) out ->
      gp_loop ns start s D out.
  (* 73-114; the ranks are stored in any order (rank_nodes) *)
  Definition goodrich_returns (ns : nat) (rank : nat -> nat) : Prop :=
    exists s r, gp_loop ns 0 (seq 0 n) (fun v => length (outn v)) s /\ rank_nodes s r /\ forall v, rank v = nth v r 0.

  (* Barenboim-Elkin: 32-35 end, the greatest position of a vertex below the cutoff, 0 if none *)
  Definition last_below (cutoff : nat) (D : nat -> nat) (start : nat) (srt : list nat) : nat :=
    fold_right Nat.max 0 (map (fun p => if D (snd p) <? cutoff then start + fst p else 0) (combine (seq 0 (length srt)) srt)).
  (* 28-55 the loop; None: end < start, so that end - start at line 38 wraps around and line 39 allocates
     more than 2^63 elements *)
  Inductive be_loop (cutoff : nat) : nat -> list nat -> (nat -> nat) -> option (list nat) -> Prop :=
  | be_done : forall start s D, n <= start -> be_loop cutoff start s D (Some s)
  | be_wraps : forall start s D srt, start < n ->
      Permutation srt (skipn start s) -> sorted_by (fun v => if D v <? cutoff then 1 else 0) srt ->
      last_below cutoff D start srt < start -> be_loop cutoff start s D None
  | be_round : forall start s D srt e res out, start < n ->
      Permutation srt (skipn start s) -> sorted_by (fun v => if D v <? cutoff then 1 else 0) srt ->
      start <= last_below cutoff D start srt ->
      e = (if last_below cutoff D start srt =? start then start + 1 else last_below cutoff D start srt) ->
      counted (flat_map outn (firstn (e - start) srt)) res ->
      be_loop cutoff e (firstn start s ++ srt) (drop D res) out ->
      be_loop cutoff start s D out.
  (* 13-59; None: it aborts *)
  Definition barenboim_elkin_returns (cutoff : nat) (rank : option (nat -> nat)) : Prop :=
    exists s, be_loop cutoff 0 (seq 0 n) (fun v => length (outn v)) s /\
      match s with
      | None => rank = None
      | Some s => exists r f, rank_nodes s r /\ (forall v, f v = nth v r 0) /\ rank = Some f
      end.
End GO.
