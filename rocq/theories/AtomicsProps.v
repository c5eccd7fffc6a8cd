(* C11, C12, C13: the atomic helpers of gbbs/bridge.h, under every schedule.
   [sched] is the list of call numbers that take the successive atomic steps;
   [firstn k sched] is the run up to its k-th step. *)
From Verif Require Import Base AtomicsModel AtomicsSpec AtomicsProofs AtomicsProofs2.
From Coq Require Import ZArith.
Local Open Scope Z_scope.

(* memory / results after running [sched] from value [init] with calls [ops] *)
Notation memory_after ops init sched := (fst (exec Z.eq_dec ops sched (start ops init))).
Notation result_after ops init sched i := (result (exec Z.eq_dec ops sched (start ops init)) i).

(* ---------------- C11 ---------------- *)
Theorem C11_write_min_linearizable :
  forall (init : Z) (bs : list Z) (sched : list nat),
    linearizable (fun i v => seq_write_min v (nth i bs 0)) init
      (fun k => memory_after (map (write_min Z.ltb) bs) init (firstn k sched))
      (fun k i => result_after (map (write_min Z.ltb) bs) init (firstn k sched) i).
Proof. intros init bs sched. exact (rmw_linearizable Z.eq_dec _ _ (@call_write_min bs) init sched). Qed.
Print Assumptions C11_write_min_linearizable.

Theorem C11_write_max_linearizable :
  forall (init : Z) (bs : list Z) (sched : list nat),
    linearizable (fun i v => seq_write_max v (nth i bs 0)) init
      (fun k => memory_after (map (write_max Z.ltb) bs) init (firstn k sched))
      (fun k i => result_after (map (write_max Z.ltb) bs) init (firstn k sched) i).
Proof. intros init bs sched. exact (rmw_linearizable Z.eq_dec _ _ (@call_write_max bs) init sched). Qed.
Print Assumptions C11_write_max_linearizable.

Theorem C11_write_min_final :
  forall init bs sched,
    (forall i, (i < length bs)%nat -> result_after (map (write_min Z.ltb) bs) init sched i <> None) ->
    memory_after (map (write_min Z.ltb) bs) init sched = fold_right Z.min init bs.
Proof. exact write_min_final. Qed.
Print Assumptions C11_write_min_final.

Theorem C11_write_max_final :
  forall init bs sched,
    (forall i, (i < length bs)%nat -> result_after (map (write_max Z.ltb) bs) init sched i <> None) ->
    memory_after (map (write_max Z.ltb) bs) init sched = fold_right Z.max init bs.
Proof. exact write_max_final. Qed.
Print Assumptions C11_write_max_final.

Theorem C11_write_min_monotone :
  forall init bs sched1 sched2,
    memory_after (map (write_min Z.ltb) bs) init (sched1 ++ sched2) <=
    memory_after (map (write_min Z.ltb) bs) init sched1.
Proof. exact write_min_monotone. Qed.
Print Assumptions C11_write_min_monotone.

Theorem C11_write_max_monotone :
  forall init bs sched1 sched2,
    memory_after (map (write_max Z.ltb) bs) init sched1 <=
    memory_after (map (write_max Z.ltb) bs) init (sched1 ++ sched2).
Proof. exact write_max_monotone. Qed.
Print Assumptions C11_write_max_monotone.

(* every call returns after at most 2 * (number of calls) of its own steps,
   whatever the others do *)
Theorem C11_write_min_returns :
  forall init bs sched i, (i < length bs)%nat ->
    (2 * length bs <= count_occ Nat.eq_dec sched i)%nat ->
    result_after (map (write_min Z.ltb) bs) init sched i <> None.
Proof.
  intros init bs sched i H1 H2.
  apply returns_after; rewrite map_length; assumption.
Qed.
Print Assumptions C11_write_min_returns.

Theorem C11_write_max_returns :
  forall init bs sched i, (i < length bs)%nat ->
    (2 * length bs <= count_occ Nat.eq_dec sched i)%nat ->
    result_after (map (write_max Z.ltb) bs) init sched i <> None.
Proof.
  intros init bs sched i H1 H2.
  apply returns_after; rewrite map_length; assumption.
Qed.
Print Assumptions C11_write_max_returns.

(* a run of three write_min calls in which call 0 loses its first CAS *)
Example C11_example :
  let ops := map (write_min Z.ltb) [3; 5; 1] in
  let s := exec Z.eq_dec ops [0; 1; 1; 0; 2; 0; 0; 2; 2; 2]%nat (start ops 9) in
  fst s = 1 /\ map (result s) [0; 1; 2]%nat = [Some true; Some true; Some true].
Proof. vm_compute. repeat split. Qed.

Example C11_example_false :
  let ops := map (write_min Z.ltb) [3; 5; 1] in
  let s := exec Z.eq_dec ops [0; 1; 2; 2; 0; 0; 1; 1]%nat (start ops 9) in
  fst s = 1 /\ map (result s) [0; 1; 2]%nat = [Some false; Some false; Some true].
Proof. vm_compute. repeat split. Qed.

(* ---------------- C12 ---------------- *)
Theorem C12_fetch_and_add_linearizable :
  forall (w init : Z) (bs : list Z) (sched : list nat),
    linearizable (fun i v => seq_fetch_add w v (nth i bs 0)) init
      (fun k => memory_after (map (fetch_and_add w) bs) init (firstn k sched))
      (fun k i => result_after (map (fetch_and_add w) bs) init (firstn k sched) i).
Proof. intros w init bs sched. exact (rmw_linearizable Z.eq_dec _ _ (@call_fetch_add w bs) init sched). Qed.
Print Assumptions C12_fetch_and_add_linearizable.

Theorem C12_write_add_linearizable :
  forall (w init : Z) (bs : list Z) (sched : list nat),
    linearizable (fun i v => seq_write_add w v (nth i bs 0)) init
      (fun k => memory_after (map (write_add w) bs) init (firstn k sched))
      (fun k i => result_after (map (write_add w) bs) init (firstn k sched) i).
Proof. intros w init bs sched. exact (rmw_linearizable Z.eq_dec _ _ (@call_write_add w bs) init sched). Qed.
Print Assumptions C12_write_add_linearizable.

(* no lost update, on a w-bit unsigned location (all sums modulo 2^w) *)
Theorem C12_fetch_and_add_final :
  forall w init bs sched, 0 <= w -> 0 <= init < 2 ^ w ->
    (forall i, (i < length bs)%nat -> result_after (map (fetch_and_add w) bs) init sched i <> None) ->
    memory_after (map (fetch_and_add w) bs) init sched = (fold_right Z.add init bs) mod 2 ^ w.
Proof. exact fetch_add_final. Qed.
Print Assumptions C12_fetch_and_add_final.

Theorem C12_write_add_final :
  forall w init bs sched, 0 <= w -> 0 <= init < 2 ^ w ->
    (forall i, (i < length bs)%nat -> result_after (map (write_add w) bs) init sched i <> None) ->
    memory_after (map (write_add w) bs) init sched = (fold_right Z.add init bs) mod 2 ^ w.
Proof. exact write_add_final. Qed.
Print Assumptions C12_write_add_final.

Theorem C12_fetch_and_add_returns :
  forall w init bs sched i, (i < length bs)%nat ->
    (2 * length bs <= count_occ Nat.eq_dec sched i)%nat ->
    result_after (map (fetch_and_add w) bs) init sched i <> None.
Proof.
  intros w init bs sched i H1 H2.
  apply returns_after; rewrite map_length; assumption.
Qed.
Print Assumptions C12_fetch_and_add_returns.

Example C12_example :
  let ops := map (fetch_and_add 8) [200; 100; 7] in
  let s := exec Z.eq_dec ops [0; 1; 2; 2; 0; 0; 1; 1; 0; 0; 1; 1; 0; 1; 1]%nat (start ops 1) in
  fst s = 52 /\ map (result s) [0; 1; 2]%nat = [Some 8; Some 208; Some 1].
Proof. vm_compute. repeat split. Qed.

(* ---------------- C13 ---------------- *)
Theorem C13_threshold_linearizable :
  forall (w mx init : Z) (bs : list Z) (sched : list nat),
    linearizable (fun i v => seq_fetch_add_threshold w v (nth i bs 0) mx) init
      (fun k => memory_after (map (fun b => fetch_and_add_threshold w b mx) bs) init (firstn k sched))
      (fun k i => result_after (map (fun b => fetch_and_add_threshold w b mx) bs) init (firstn k sched) i).
Proof. intros w mx init bs sched. exact (rmw_linearizable Z.eq_dec _ _ (@call_threshold w mx bs) init sched). Qed.
Print Assumptions C13_threshold_linearizable.

Theorem C13_threshold_bound :
  forall w mx init bs B sched, 0 <= w ->
    (forall b, In b bs -> 0 <= b <= B) -> 0 <= init < 2 ^ w -> mx + B < 2 ^ w ->
    init <= memory_after (map (fun b => fetch_and_add_threshold w b mx) bs) init sched <= Z.max init (mx + B).
Proof. exact threshold_bound. Qed.
Print Assumptions C13_threshold_bound.

(* the value is the initial value plus the arguments of the calls that succeeded *)
Definition succeeded_sum (bs : list Z) (res : nat -> option (option Z)) : Z :=
  fold_right Z.add 0
    (map (fun i => match res i with Some (Some _) => nth i bs 0 | _ => 0 end) (seq 0 (length bs))).

Theorem C13_threshold_sum :
  forall w mx init bs B sched, 0 <= w ->
    (forall b, In b bs -> 0 <= b <= B) -> 0 <= init < 2 ^ w -> mx + B < 2 ^ w ->
    memory_after (map (fun b => fetch_and_add_threshold w b mx) bs) init sched =
    init + succeeded_sum bs (fun i => result_after (map (fun b => fetch_and_add_threshold w b mx) bs) init sched i).
Proof. exact threshold_sum. Qed.
Print Assumptions C13_threshold_sum.

(* a call that returned "not added" did so at a moment when the value was above the threshold *)
Theorem C13_threshold_failed_saw :
  forall w mx init bs sched i,
    let ops := map (fun b => fetch_and_add_threshold w b mx) bs in
    result_after ops init sched i = Some None ->
    exists k, (k <= length sched)%nat /\ memory_after ops init (firstn k sched) > mx.
Proof. exact threshold_failed_saw. Qed.
Print Assumptions C13_threshold_failed_saw.

Example C13_example :
  let ops := map (fun b => fetch_and_add_threshold 32 b 10) [4; 5; 6; 1] in
  let s := exec Z.eq_dec ops [0; 1; 2; 3; 1; 0; 0; 0; 2; 2; 2; 3; 3; 3; 3]%nat (start ops 3) in
  fst s = 12 /\ map (result s) [0; 1; 2; 3]%nat = [Some (Some 8); Some (Some 3); Some None; Some None].
Proof. vm_compute. repeat split. Qed.
