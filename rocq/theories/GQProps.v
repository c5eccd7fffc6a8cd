(* C93: the approximate degeneracy order of Goodrich-Pszona by selection. *)
From Coq Require Import Permutation.
From Verif Require Import Base ListUtil BKSpec KCModel KCSpec KCProofs GOModel GOSpec GQModel GQSpec GQProofs.
Unset Strict Implicit.

(* it ends; where it returns, the result has every vertex once, in rounds that take exactly the vertices with at most a
   threshold of edges into those left, at most b of which have fewer edges than the threshold *)
Theorem C93_rounds : forall n outn null sel ns b, symmetric n outn -> (forall v, v < n -> length (outn v) <= null) -> selects ns b sel ->
  (always_selects sel -> exists o, gq_returns outn null sel n ns o) /\
  forall out, gq_returns outn null sel n ns (Some out) -> Permutation out (seq 0 n) /\ in_rounds outn b out.
Proof.
  intros n outn null sel ns b Hs Hn Hsel. split.
  - intros Ht. exact (gq_runs outn null Hsel Ht (fun v => length (outn v)) [] (le_n (length (seq 0 n)))).
  - intros out H. destruct (gq_ok Hs Hn Hsel H (qinv_start Hs) eq_refl) as (new & E & P & R). cbn [app] in E. subst new. auto.
Qed.

(* so in a d-degenerate graph, a vertex removed when m are left has at most 2 d m / (m - b) edges to its own and later rounds *)
Theorem C93_bound : forall n outn null sel ns b d out, symmetric n outn -> (forall v, v < n -> length (outn v) <= null) -> selects ns b sel ->
  degenerate n outn d -> gq_returns outn null sel n ns (Some out) ->
  forall i, i < n -> exists q, q <= i /\ edges_into outn (skipn q out) (nth i out 0) * (n - q - b) <= 2 * d * (n - q).
Proof.
  intros n outn null sel ns b d out Hs Hn Hsel Hd H i Hi. destruct (C93_rounds Hs Hn Hsel) as [_ X]. destruct (X out H) as [P R].
  assert (E : length out = n) by (rewrite (Permutation_length P); apply seq_length). pose proof (rounds_bound Hs Hd R) as Y. rewrite E in Y. apply Y; auto.
  - eapply Permutation_NoDup; [symmetry; exact P|apply seq_NoDup].
  - intros v Hv. apply (Permutation_in _ P), in_seq in Hv. lia.
Qed.
(* the exact selection is such a selection, with b = ns *)
Theorem C93_exact : forall ns, selects ns ns exact_kth /\ always_selects exact_kth.
Proof. intros ns. split; [apply exact_selects|apply exact_total]. Qed.

(* it returns only if more than ns vertices are left for the last round; otherwise it selects outside the range of values *)
Theorem C93_range : forall n outn null sel ns b, 0 < n -> selects ns b sel ->
  (forall out, gq_returns outn null sel n ns (Some out) -> ns < n) /\ (n <= ns -> forall o, gq_returns outn null sel n ns o -> o = None).
Proof.
  intros n outn null sel ns b Hn Hsel. assert (X : forall out, gq_returns outn null sel n ns (Some out) -> ns < n).
  { intros out H. destruct (gq_last Hsel H) with (out := out) as (A & L & _ & H1 & H2); auto; [destruct n; [lia|discriminate]|]. rewrite seq_length in H2. lia. }
  split; auto. intros Hle o H. destruct o as [out|]; auto. apply X in H. lia.
Qed.
(* this happens on the path of three vertices with the default epsilon = 1 / 10 and the exact selection, and on a single vertex *)
Definition path3 (v : nat) : list nat := match v with 0 => [1] | 1 => [0; 2] | 2 => [1] | _ => [] end.
Lemma path3_sym : symmetric 3 path3.
Proof.
  split.
  - intros u v Hu Hv. do 3 (destruct u as [|u]; [cbn in Hv; lia|]). lia.
  - intros u v Hu Hv. do 3 (destruct u as [|u]; [do 3 (destruct v as [|v]; [reflexivity|]); lia|]). lia.
Qed.
Theorem C93_range_refuted : peel_size 3 1 10 = 1 /\ symmetric 3 path3 /\ (exists o, gq_returns path3 10 exact_kth 3 1 o) /\
  (forall o, gq_returns path3 10 exact_kth 3 1 o -> o = None) /\
  peel_size 1 1 10 = 1 /\ forall o, gq_returns (fun _ => []) 10 exact_kth 1 1 o -> o = None.
Proof.
  split; [reflexivity|]. split; [exact path3_sym|]. split; [|split; [|split; [reflexivity|]]].
  - apply (@C93_rounds 3 path3 10 exact_kth 1 1 path3_sym); [|apply exact_selects|apply exact_total]. intros v Hv. do 3 (destruct v as [|v]; [cbn; lia|]). lia.
  - intros o H. unfold gq_returns in H. cbn [seq] in H. inversion H as [|a D ret Ha Hl|a D ret t res o' Ha Hl Hs Hc Hr]; subst; auto.
    destruct Hs as (Hin & Hs & _). cbn in Hin. destruct Hin as [<-|[<-|[<-|[]]]].
    + cbn in Hr. inversion Hr as [|a D ret Ha' Hl'|a D ret t res2 o' Ha' Hl' Hs' Hc' Hr']; subst; auto. cbn in Hl'. lia.
    + cbn in Hs. lia.
    + cbn in Hr. inversion Hr as [|a D ret Ha' Hl'|a D ret t res2 o' Ha' Hl' Hs' Hc' Hr']; subst; auto. cbn in Hl'. lia.
  - intros o H. apply (proj2 (@C93_range 1 (fun _ => []) 10 exact_kth 1 1 Nat.lt_0_1 (@exact_selects 1))) in H; auto.
Qed.

(* two isolated vertices and a triangle: two rounds *)
Definition iso_triangle (v : nat) : list nat := match v with 2 => [3; 4] | 3 => [2; 4] | 4 => [2; 3] | _ => [] end.
Example C93_example : symmetric 5 iso_triangle /\ degenerate 5 iso_triangle 2 /\ gq_returns iso_triangle 10 exact_kth 5 1 (Some [0; 1; 2; 3; 4]).
Proof.
  split; [|split].
  - split.
    + intros u v Hu Hv. do 5 (destruct u as [|u]; [cbn in Hv; lia|]). lia.
    + intros u v Hu Hv. do 5 (destruct u as [|u]; [do 5 (destruct v as [|v]; [reflexivity|]); lia|]). lia.
  - intros S C v. destruct (S v) eqn:E; auto. exfalso. destruct (C v E) as [Hv Hd]. unfold degree_in in Hd.
    do 5 (destruct v as [|v]; [cbn in Hd; repeat match type of Hd with context[S ?x] => destruct (S x) end; cbn in Hd; lia|]). lia.
  - unfold gq_returns. cbn [seq]. apply gq_round with (t := 0) (res := []); [discriminate|cbn; lia|cbn; split; [now left|cbn; lia]| |].
    + split; [constructor|]. intros v c. cbn. split; [intros []|lia].
    + destruct (KCProofs.counted_exists (flat_map iso_triangle [2; 3; 4])) as (res & Hres).
      apply gq_round with (t := 2) (res := res); [cbn; discriminate|cbn; lia|cbn; split; [now left|cbn; lia]|exact Hres|]. cbn. apply gq_done.
Qed.

Print Assumptions C93_rounds.
Print Assumptions C93_bound.
Print Assumptions C93_exact.
Print Assumptions C93_range.
Print Assumptions C93_range_refuted.
