(* C65: ApproximateSetCover. *)
From Coq Require Import QArith.
From Verif Require Import Base BKModel BKSpec BKProofs CVModel CVSpec CVBuckets CVProofs CVWeights CVFinal.
Local Open Scope nat_scope.

(* For every graph, every number o of open buckets, every first content of the priorities, and
   whatever permutations the rounds draw and in whatever order they visit the edges: the number
   of rounds is bounded, a run can always go on or return, some run returns, and every list
   returned has no repetition and covers every element of every set. *)
Theorem C65_set_cover : forall n o null cov bkt thr low nbr perm0,
  0 < o -> n <= cov < null -> levels bkt thr low ->
  (forall v, v < n -> bkt (length (nbr v)) < null) ->
  (exists m, forall k s, cv_loop n o null cov bkt thr low nbr perm0 k s -> k <= m) /\
  (forall k s, cv_loop n o null cov bkt thr low nbr perm0 k s ->
     (exists fuel bk', next_bucket false o fuel (c_D s) (c_bk s) = Ret None bk') \/
     (exists s', cv_round o null cov bkt thr low s s')) /\
  (exists cover, cv_returns n o null cov bkt thr low nbr perm0 cover) /\
  (forall cover, cv_returns n o null cov bkt thr low nbr perm0 cover ->
     NoDup cover /\ (forall u, In u cover -> u < n) /\ covers n nbr cover).
Proof.
  intros n o null cov bkt thr low nbr perm0 Ho Hcov Hlv Hfit. split; [|split; [|split]].
  - eexists. intros k s. exact (@rounds_bound n o null cov bkt thr low nbr Ho Hcov Hlv Hfit perm0 k s).
  - exact (@step_or_end n o null cov bkt thr low nbr Ho Hcov Hlv Hfit perm0).
  - exact (@some_result n o null cov bkt thr low nbr Ho Hcov Hlv Hfit perm0).
  - exact (@result_ok n o null cov bkt thr low nbr Ho Hcov Hlv Hfit perm0).
Qed.
Print Assumptions C65_set_cover.

(* The size: against every family O of sets that covers every element, each set of O pays for at
   most kappa * H(its size) of the returned sets, and, if it was itself returned, for at most
   (1 - 1/kappa) times its size more. *)
Theorem C65_size : forall n o null cov bkt thr low nbr perm0 kappa cover O,
  0 < o -> n <= cov < null -> levels bkt thr low ->
  (forall v, v < n -> bkt (length (nbr v)) < null) ->
  steep bkt low kappa ->
  (forall u, u < n -> NoDup (nbr u)) -> (forall u v, u < n -> In v (nbr u) -> v < n) ->
  cv_returns n o null cov bkt thr low nbr perm0 cover ->
  (forall u, In u O -> u < n) -> covers n nbr O ->
  (inject_Z (Z.of_nat (length cover)) <=
     qsum (map (fun u => kappa * harmonic (length (nbr u)) +
       (if mem u cover then (1 - 1 / kappa) * inject_Z (Z.of_nat (length (nbr u))) else 0)) O))%Q.
Proof.
  intros n o null cov bkt thr low nbr perm0 kappa cover O Ho Hcov Hlv Hfit Hst Hnd Hin Hr HO HOc.
  exact (@result_size n o null cov bkt thr low nbr Ho Hcov Hlv Hfit kappa Hst Hnd Hin perm0 cover O Hr HO HOc).
Qed.
Print Assumptions C65_size.

(* With the powers of 1.01 computed exactly, and bucket 0 read as asking for one element, the
   hypotheses on the levels hold, with kappa = 1.0201. *)
Theorem C65_exact :
  levels exact_bkt exact_thr exact_low /\ steep exact_bkt exact_low (10201 # 10000).
Proof. split; [apply exact_levels|apply exact_steep]. Qed.
Print Assumptions C65_exact.

(* If instead a set needs two elements or more to join from bucket 0 (as when the infinite
   argument is converted to the largest integer), no run on the graph with the one edge 0-1
   returns. *)
Theorem C65_hang_refuted : forall o null cov bkt thr low perm0,
  0 < o -> 2 <= cov < null -> bkt 1 = 0 -> 2 <= low 0 ->
  ~ exists cover, cv_returns 2 o null cov bkt thr low (fun v => match v with 0 => [1] | 1 => [0] | _ => [] end) perm0 cover.
Proof. intros o null cov bkt thr low perm0 Ho Hcov Hb Hlow [cover H]. exact (@never_returns o null cov bkt thr low Ho Hcov Hb Hlow perm0 cover H). Qed.
Print Assumptions C65_hang_refuted.

(* -- runs in which the edges are visited in order, with the given permutations ---------------- *)
Definition good_perm (P : list nat) (k : nat) : bool := (length P =? k) && forallb (fun i => mem i P) (seq 0 k).
Lemma good_perm_ok P k : good_perm P k = true -> Permutation P (seq 0 k).
Proof.
  intros H. apply andb_prop in H as [H1 H2]. apply Nat.eqb_eq in H1. rewrite forallb_forall in H2.
  symmetry. apply NoDup_Permutation_bis; [apply seq_NoDup|rewrite seq_length; lia|]. intros x Hx. apply mem_In, H2, Hx.
Qed.
Section Sim.
  Variables n o null cov : nat.
  Variables bkt thr low : nat -> nat.
  Variable nbr : nat -> list nat.
  Fixpoint sim (fuel : nat) (Ps : list (list nat)) (s : cst) : option (list nat) :=
    match next_bucket false o fuel (c_D s) (c_bk s) with
    | Ret None _ => Some (c_cover s)
    | Ret (Some (b, L)) bk' =>
        let nb1 := packed cov L (c_el s) (c_nb s) in
        let A := still thr b L nb1 in
        match Ps with
        | [] => None
        | P :: Ps => if good_perm P (length A)
            then sim fuel Ps (round_with o null cov bkt thr low b L bk' P (out_edges A nb1) (out_edges A nb1) s)
            else None
        end
    | _ => None
    end.
  Lemma sim_ok perm0 fuel : forall Ps k s c, cv_loop n o null cov bkt thr low nbr perm0 k s ->
    sim fuel Ps s = Some c -> cv_returns n o null cov bkt thr low nbr perm0 c.
  Proof.
    induction Ps as [|P Ps IH]; intros k s c H E; cbn [sim] in E;
      destruct (next_bucket false o fuel (c_D s) (c_bk s)) as [| |r bk'] eqn:En; try discriminate; destruct r as [[b L]|]; try discriminate;
      try (injection E as <-; exists k, s, fuel, bk'; auto; fail).
    destruct (good_perm P _) eqn:Eg; [|discriminate]. apply good_perm_ok in Eg.
    eapply IH; [|exact E]. eapply cv_next; [exact H|]. eapply cv_round_intro; eauto.
  Qed.
End Sim.

(* A returned set may be redundant: here the sets 0, 2, 3 and 10, chosen first, cover every element,
   and set 1 = {3, 4, 5, 10} joins later, because set 2 = {7, 8, 9, 10} left its element 10
   unmarked, 10 having been won in that round by the losing set 1. *)
Definition redundant_graph (v : nat) : list nat :=
  match v with
  | 0 => [3; 4; 5; 6] | 1 => [3; 4; 5; 10] | 2 => [7; 8; 9; 10]
  | 3 => [0; 1] | 4 => [0; 1] | 5 => [0; 1] | 6 => [0]
  | 7 => [2] | 8 => [2] | 9 => [2] | 10 => [1; 2] | _ => []
  end.
Definition low2 (b : nat) : nat := match b with 0 => 1 | S b => 2 ^ b end.
Lemma levels2 : levels Nat.log2 (Nat.pow 2) low2.
Proof.
  constructor.
  - intros d b Hd. apply Nat.log2_le_pow2. lia.
  - intros [|b]; cbn [low2]; [simpl; lia|]. rewrite Nat.pow_succ_r'. assert (2 ^ b <> 0) by (apply Nat.pow_nonzero; lia). lia.
Qed.
Theorem C65_redundant_refuted : exists n o null cov bkt thr low nbr perm0 l u,
  0 < o /\ n <= cov < null /\ levels bkt thr low /\
  (forall v, v < n -> bkt (length (nbr v)) < null) /\
  (forall u, u < n -> NoDup (nbr u)) /\ (forall u v, u < n -> In v (nbr u) -> v < n /\ In u (nbr v)) /\
  cv_returns n o null cov bkt thr low nbr perm0 (l ++ [u]) /\ covers n nbr l.
Proof.
  exists 11, 127, 21, 20, Nat.log2, (Nat.pow 2), low2, redundant_graph, (fun _ => 0), [0; 2; 3; 10], 1.
  split; [lia|]. split; [lia|]. split; [apply levels2|].
  split; [intros v Hv; do 11 (destruct v as [|v]; [vm_compute; lia|]); lia|].
  split; [intros v Hv; do 11 (destruct v as [|v]; [repeat constructor; simpl; lia|]); lia|].
  split; [intros u v Hu Hv; do 11 (destruct u as [|u]; [simpl in Hv; repeat (destruct Hv as [<-|Hv]; [simpl; lia|]); tauto|]); lia|].
  split.
  - eapply sim_ok with (k := 0) (s := start 11 127 21 Nat.log2 redundant_graph (fun _ => 0)) (fuel := 300)
      (Ps := [[0; 1; 2]; []; [0; 1; 2; 3]; []; [0]]); [constructor|]. vm_compute. reflexivity.
  - intros u v Hu Hv. do 11 (destruct u as [|u]; [simpl in Hv; repeat (destruct Hv as [<-|Hv];
      [first [exists 0; split; [simpl; lia|simpl; lia]|exists 2; split; [simpl; lia|simpl; lia]|exists 3; split; [simpl; lia|simpl; lia]|exists 10; split; [simpl; lia|simpl; lia]]|]); tauto|]); lia.
Qed.
Print Assumptions C65_redundant_refuted.

(* the hypotheses are met: the path 1 - 0 - 2, 0 - 3 - 4, with the exact functions *)
Definition cv_ex (v : nat) : list nat :=
  match v with 0 => [1; 2; 3] | 1 => [0] | 2 => [0] | 3 => [0; 4] | 4 => [3] | _ => [] end.
Example C65_example : cv_returns 5 127 200 190 exact_bkt exact_thr exact_low cv_ex (fun _ => 0) [0; 3] /\
  (forall v, v < 5 -> exact_bkt (length (cv_ex v)) < 200) /\
  (forall u, u < 5 -> NoDup (cv_ex u)) /\ (forall u v, u < 5 -> In v (cv_ex u) -> v < 5) /\
  covers 5 cv_ex [0; 3].
Proof.
  split; [|split; [|split; [|split]]].
  - eapply sim_ok with (k := 0) (s := start 5 127 200 exact_bkt cv_ex (fun _ => 0)) (fuel := 300)
      (Ps := [[0]; [0]; []]); [constructor|]. vm_compute. reflexivity.
  - intros v Hv. do 5 (destruct v as [|v]; [vm_compute; lia|]). lia.
  - intros v Hv. do 5 (destruct v as [|v]; [repeat constructor; simpl; lia|]). lia.
  - intros u v Hu Hv. do 5 (destruct u as [|u]; [simpl in Hv; lia|]). lia.
  - intros u v Hu Hv. do 5 (destruct u as [|u]; [simpl in Hv; repeat (destruct Hv as [<-|Hv];
      [first [exists 0; split; [simpl; lia|simpl; lia]|exists 3; split; [simpl; lia|simpl; lia]]|]); tauto|]). lia.
Qed.
