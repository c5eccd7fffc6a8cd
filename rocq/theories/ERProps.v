(* Theorems for C95. *)
From Coq Require Import Permutation ZArith.
From Verif Require Import Base ERModel ERSpec ERProofs.
Unset Strict Implicit.

(* for every monoid, every order of the vertices and every bracketing: with a non-empty frontier, of whatever content, every
   vertex that satisfies the condition is applied once, to the combination of all its edges *)
Theorem C95_dense : forall M O A W (f : M -> M -> M) id (inn outn : nat -> list (nat * W)) n cond (mapf : nat -> nat -> W -> M) (applyf : nat -> M -> A -> option O * A) size (no_output in_edges : bool) d,
  monoid f id -> size <> 0 ->
  let nbrs := if in_edges then inn else outn in
  (exists vs d' calls, edgeMapReduce_dense f id inn outn n cond mapf applyf size no_output in_edges d vs d' calls) /\
  forall vs d' calls, edgeMapReduce_dense f id inn outn n cond mapf applyf size no_output in_edges d vs d' calls ->
    universe vs = n /\
    (forall v, member vs v = if negb no_output && (v <? n) && cond v then fst (applyf v (total f id mapf nbrs v) (d v)) else None) /\
    (forall v, d' v = if (v <? n) && cond v then snd (applyf v (total f id mapf nbrs v) (d v)) else d v) /\
    Permutation calls (map (fun v => (v, total f id mapf nbrs v)) (filter cond (seq 0 n))).
Proof.
  intros M O A W f id inn outn n cond mapf applyf size no_output in_edges d Hf Hs nbrs.
  assert (En : forall v, total f id mapf (neighbors inn outn in_edges) v = total f id mapf nbrs v) by (intros v; unfold total, neighbors, nbrs; now destruct in_edges).
  split.
  - destruct no_output.
    + destruct (@loop_exists M O A W f id inn outn cond mapf applyf Hf in_edges false (seq 0 n) {| out := []; data := d; calls := [] |}) as (s & H).
      do 3 eexists. eapply er_no_output; eauto.
    + destruct (@loop_exists M O A W f id inn outn cond mapf applyf Hf in_edges true (seq 0 n) {| out := repeat None n; data := d; calls := [] |}) as (s & H).
      do 3 eexists. eapply er_output; eauto. apply repeat_length.
  - assert (Com : forall output order out0 s, Permutation order (seq 0 n) -> (output = true -> length out0 = n) ->
      loop f id inn outn cond mapf applyf output in_edges order {| out := out0; data := d; calls := [] |} s ->
      (output = true -> forall v, nth v (out s) None = if (v <? n) && cond v then fst (applyf v (total f id mapf nbrs v) (d v)) else None) /\
      (forall v, data s v = if (v <? n) && cond v then snd (applyf v (total f id mapf nbrs v) (d v)) else d v) /\
      Permutation (calls s) (map (fun v => (v, total f id mapf nbrs v)) (filter cond (seq 0 n)))).
    { intros output order out0 s P Ho H. assert (ND : NoDup order) by (eapply Permutation_NoDup; [symmetry; exact P|apply seq_NoDup]).
      assert (Io : forall v, In v order <-> v < n).
      { intros v. split; intros X; [apply (Permutation_in _ P), in_seq in X; lia|apply (Permutation_in _ (Permutation_sym P)), in_seq; lia]. }
      destruct (loop_ok Hf H ND) as (L & H1 & H2 & H3 & H4 & H5); cbn [out data ERModel.calls] in *.
      { intros E v Hv. rewrite Ho by auto. now apply Io. }
      split; [|split].
      - intros E v. destruct (Nat.ltb_spec v n) as [C|C]; cbn [andb].
        + rewrite H1 by (auto; now apply Io). unfold res. now rewrite En.
        + apply nth_overflow. rewrite L, Ho; auto.
      - intros v. destruct (Nat.ltb_spec v n) as [C|C]; cbn [andb].
        + rewrite H3 by now apply Io. unfold dat. now rewrite En.
        + apply H4. rewrite Io. lia.
      - rewrite H5. cbn [app]. assert (X : Permutation (filter cond order) (filter cond (seq 0 n))).
        { clear - P. induction P; cbn [filter]; auto; repeat match goal with |- context[cond ?y] => destruct (cond y) end; auto; try constructor; auto. eapply Permutation_trans; eauto. }
        rewrite <- X. erewrite map_ext; [reflexivity|]. intros v. cbv beta. now rewrite En. }
    intros vs d' cl H. destruct H as [E|order s E En' P H|order s out0 E En' P Hl H]; [congruence| |]; subst no_output; cbn [universe member negb andb].
    + destruct (Com false order [] s P ltac:(discriminate) H) as (_ & C2 & C3). auto.
    + destruct (Com true order out0 s P ltac:(auto) H) as (C1 & C2 & C3). auto.
Qed.
(* with an empty frontier nothing is applied *)
Theorem C95_empty : forall M O A W (f : M -> M -> M) id (inn outn : nat -> list (nat * W)) n cond (mapf : nat -> nat -> W -> M) (applyf : nat -> M -> A -> option O * A) no_output in_edges d vs d' calls,
  edgeMapReduce_dense f id inn outn n cond mapf applyf 0 no_output in_edges d vs d' calls -> universe vs = 0 /\ (forall v, member vs v = None) /\ d' = d /\ calls = [].
Proof. intros. destruct H as [E|order s E En' P H|order s out0 E En' P Hl H]; try congruence. auto. Qed.

Definition two (v : nat) : list (nat * unit) := match v with 0 => [(1, tt); (2, tt); (3, tt)] | _ => [] end.
(* the subset returned for an empty frontier is not one of the vertices of the graph *)
Theorem C95_universe_refuted : exists vs d' calls,
  edgeMapReduce_dense Nat.add 0 two two 4 (fun _ => true) (fun _ u _ => u) (fun v r a => (Some r, a)) 0 false false (fun _ => 0) vs d' calls /\ universe vs <> 4.
Proof. do 3 eexists. split; [now apply er_empty|]. cbn. discriminate. Qed.
(* without associativity the result depends on the bracketing *)
Theorem C95_order_refuted : exists vs1 vs2 d1 d2 c1 c2,
  let run := edgeMapReduce_dense Z.sub 0%Z two two 1 (fun _ => true) (fun _ u _ => Z.of_nat u) (fun v r a => (Some r, a)) 1 false false (fun _ => 0) in
  run vs1 d1 c1 /\ run vs2 d2 c2 /\ member vs1 0 = Some (-4)%Z /\ member vs2 0 = Some 2%Z.
Proof.
  do 6 eexists. cbv zeta. split; [|split].
  - eapply er_output with (order := [0]) (out0 := [None]); [discriminate|reflexivity|reflexivity|reflexivity|]. eapply l_step; [|apply l_end]. eapply b_apply with (r := (-4)%Z); [reflexivity|].
    cbn. change (-4)%Z with ((1 - 2) - 3)%Z. apply (@red_app Z Z.sub 0%Z [1%Z; 2%Z] [3%Z]); [|constructor]. apply (@red_app Z Z.sub 0%Z [1%Z] [2%Z]); constructor.
  - eapply er_output with (order := [0]) (out0 := [None]); [discriminate|reflexivity|reflexivity|reflexivity|]. eapply l_step; [|apply l_end]. eapply b_apply with (r := 2%Z); [reflexivity|].
    cbn. change 2%Z with (1 - (2 - 3))%Z at 2. apply (@red_app Z Z.sub 0%Z [1%Z] [2%Z; 3%Z]); [constructor|]. apply (@red_app Z Z.sub 0%Z [2%Z] [3%Z]); constructor.
  - split; reflexivity.
Qed.

(* sums over the neighbours; vertex 1 fails the condition, vertex 2 has no edges *)
Example C95_example : monoid Nat.add 0 /\ exists vs d' calls,
  edgeMapReduce_dense Nat.add 0 two two 3 (fun v => negb (v =? 1)) (fun _ u _ => u) (fun v r a => (if 0 <? r then Some r else None, a + r)) 1 false false (fun _ => 7) vs d' calls /\
  member vs 0 = Some 6 /\ member vs 1 = None /\ member vs 2 = None /\ d' 0 = 13 /\ d' 1 = 7.
Proof.
  assert (Hm : monoid Nat.add 0) by (split; [intros; lia|split; intros; lia]). split; auto.
  destruct (@C95_dense nat nat nat unit Nat.add 0 two two 3 (fun v => negb (v =? 1)) (fun _ u _ => u) (fun v r a => (if 0 <? r then Some r else None, a + r)) 1 false false (fun _ => 7) Hm ltac:(discriminate)) as [(vs & d' & cl & H) X].
  exists vs, d', cl. split; auto. destruct (X _ _ _ H) as (_ & Y & Z & _). rewrite !Y, !Z. repeat split; reflexivity.
Qed.

Print Assumptions C95_dense.
Print Assumptions C95_empty.
Print Assumptions C95_universe_refuted.
Print Assumptions C95_order_refuted.
