(* C67: Tarjan-Vishkin biconnectivity. *)
From Coq Require Import ZArith Sorting.Sorted.
From Verif Require Import Base ListUtil VSModel VSSpec EMModel EMSpec FAModel FAProofs GBModel GBProps UFSpec UFModel UFSys UFProps UFWait UFWaitProps BISpec BIModel BITree BILeaf BIBfs BIFinal.
Unset Strict Implicit.
Local Open Scope nat_scope.

(* For every symmetric graph whose ids are below top (TOP_BIT), and every possible result (Q, L)
   of Biconnectivity -- any interleaving of the two connectivity computations, any order of the
   write_mins, any breadth-first forest, any sequential or scanned numbering -- two edges get the
   same label exactly if no vertex separates them.  The assertion of bicc_label holds. *)
Theorem C67_labels : forall n outn m mx cut top Q L,
  undirected_graph n outn -> n <= top -> bicc_returns n outn m mx cut top Q L ->
  forall u v x y, u < n -> In v (outn u) -> u <> v -> x < n -> In y (outn x) -> x <> y ->
  exists l l', bicc_label top Q L u v = Some l /\ bicc_label top Q L x y = Some l' /\ l < n /\ l' < n /\
    (l = l' <-> same_bicc outn (u, v) (x, y)).
Proof.
  intros n outn m mx cut top Q L G Htop H u v x y. assert (Hr : forall u v, u < n -> In v (outn u) -> v < n) by (intros a b Ha Hb; apply (G a b Ha Hb)).
  assert (Hs : forall u v, u < n -> In v (outn u) -> In u (outn v)) by (intros a b Ha Hb; apply (G a b Ha Hb)).
  destruct (run_facts Hr Hs Htop H) as (P & dep & crit & E & F). now apply (labels_ok Hr Hs F).
Qed.
Print Assumptions C67_labels.

(* and the number that is printed is the number of biconnected components *)
Theorem C67_count : forall n outn m mx cut top Q L,
  undirected_graph n outn -> (forall u, u < n -> ~ In u (outn u)) -> n <= top -> bicc_returns n outn m mx cut top Q L ->
  exists reps, bicc_representatives n outn reps /\ num_biccs n outn top Q L = length reps.
Proof.
  intros n outn m mx cut top Q L G Hl Htop H. assert (Hr : forall u v, u < n -> In v (outn u) -> v < n) by (intros a b Ha Hb; apply (G a b Ha Hb)).
  assert (Hs : forall u v, u < n -> In v (outn u) -> In u (outn v)) by (intros a b Ha Hb; apply (G a b Ha Hb)).
  destruct (run_facts Hr Hs Htop H) as (P & dep & crit & E & F). now apply (count_ok Hr Hs F).
Qed.
Print Assumptions C67_count.

(* the loops end, and a result always comes out *)
Lemma multi_ends n outn m srcs : graph_ok n outn outn -> NoDup srcs -> (forall s, In s srcs -> s < n) ->
  exists p, multi_bfs n outn m srcs p.
Proof.
  intros G Hnd Hlt.
  assert (X : forall j k p U, n + 1 - k = j -> multi_loop n outn m srcs k p U -> exists p, multi_bfs n outn m srcs p).
  { induction j as [|j IH]; intros k p U Hj H.
    - pose proof (multi_bound G Hnd Hlt H). lia.
    - destruct (Nat.eq_dec (size U) 0) as [E|E]; [exists p, k, U; auto|].
      destruct (multi_inv G Hnd Hlt H) as (F & dep & HI).
      destruct (visit_progress F p m None multi_flags G (m_built HI)) as (p' & U' & Hv).
      apply (IH (S k) p' U'); [lia|]. econstructor; eauto. }
  eapply X; [reflexivity|]. constructor.
Qed.
Theorem C67_returns : forall n outn m mx cut top, undirected_graph n outn -> n <= top ->
  exists Q L, bicc_returns n outn m mx cut top Q L.
Proof.
  intros n outn m mx cut top G Htop. assert (Hr : forall u v, u < n -> In v (outn u) -> v < n) by (intros a b Ha Hb; apply (G a b Ha Hb)).
  assert (Hs : forall u v, u < n -> In v (outn u) -> In u (outn v)) by (intros a b Ha Hb; apply (G a b Ha Hb)).
  assert (Hcc : forall pred, exists L, cc_result n outn mx pred L).
  { intros pred. destruct (@C36_labels_exist n mx (all_arcs n outn) pred) as (s1 & s2 & H1 & H2).
    - intros u v H. apply arcs_in in H as [? ?]. split; eauto.
    - eexists. exists s1, s2. cbn zeta. split; [exact H1|]. split; [exact H2|reflexivity]. }
  destruct (Hcc (fun _ => true)) as (L0 & HL0). pose proof (cc_ok Hr HL0) as HC. rewrite filter_all in HC by auto.
  assert (Gr : graph_ok n outn outn) by (split; eauto; intros s d Hs' Hd; split; auto).
  assert (HLn : forall i, i < n -> L0 i < n) by (intros i Hi; apply (HC i i Hi Hi)).
  destruct (sources_ok HLn (Permutation_refl (seq 0 n))) as [Hnd Hsrc].
  destruct (@multi_ends n outn m (cc_sources n L0 (seq 0 n)) Gr Hnd) as (p & Hp).
  { intros s Hi. now apply Hsrc in Hi. }
  set (P := fun v => match p v with Some q => q | None => 0 end).
  assert (HPp : forall v, v < n -> p v = Some (P v)).
  { intros v Hv. assert (Hall : forall v, v < n -> exists s, In s (cc_sources n L0 (seq 0 n)) /\ connected (all_arcs n outn) s v).
    { intros w Hw. destruct (source_of HLn (Permutation_refl (seq 0 n)) Hw) as (s & A & B & D). exists s. split; auto. now apply (HC s w). }
    destruct (@multi_result n outn Gr m _ Hnd) with (p := p) as (dep & X & _); auto.
    - intros s Hi. now apply Hsrc in Hi.
    - destruct (X v Hv) as (q & E & _). unfold P. now rewrite E. }
  destruct (forest Hr Hs HC (Permutation_refl (seq 0 n)) Hp HPp) as (dep & A1 & A2 & A3 & A4 & A5).
  set (es := isort (W := unit) (fun _ _ => true) (tree_edges n P)).
  destruct (@isort_sorts unit (fun _ _ => true) (tree_edges n P)) as [S1 S2].
  assert (S1' : Permutation es (tree_edges n P)) by exact S1 || (apply Permutation_sym; exact S1).
  destruct (starts_exist A1 S1' S2 (Permutation_refl _)) as (starts & Hst).
  pose proof (children_ok A1 S1' S2 (Permutation_refl _) Hst) as Hch.
  destruct (leaf_ends A1 Hch Nat.add (fun _ => 1)) as (sz & Hsz).
  destruct (pre_ends A1 (HP2 A2) Hch A5 sz cut) as (pn & Hpn).
  destruct (leaf_ends A1 Hch mm_comb (fold_left mm_call (mm_calls n outn P pn) (mm_start sz pn))) as (mm & Hmm).
  destruct (Hcc (not_critical_edge top (marked P top sz pn mm))) as (L & HL).
  exists (marked P top sz pn mm), L. exists L0, (seq 0 n), p, P, mm, pn, sz. split; auto. split; [apply Permutation_refl|].
  cbn zeta. split; auto. split; auto. split; [|auto].
  exists es, (start_stores es), starts. split; auto. split; [exact S2|]. split; [apply Permutation_refl|]. split; auto.
  cbn zeta. split; auto. split; auto. exists (mm_calls n outn P pn). split; [apply Permutation_refl|auto].
Qed.
Print Assumptions C67_returns.

(* a triangle 0 1 2 with a pendant vertex 3 and an isolated vertex 4: there is a result, and in
   every result the edges of the triangle share a label that the bridge does not have *)
Example C67_example :
  let outn := fun v => nth v [[1; 2]; [0; 2]; [0; 1; 3]; [2]; []] [] in
  undirected_graph 5 outn /\ (forall u, u < 5 -> ~ In u (outn u)) /\
  (exists Q L, bicc_returns 5 outn 8 99 2 16 Q L) /\
  forall Q L, bicc_returns 5 outn 8 99 2 16 Q L ->
    bicc_label 16 Q L 0 1 = bicc_label 16 Q L 2 1 /\ bicc_label 16 Q L 0 1 <> bicc_label 16 Q L 2 3.
Proof.
  cbv zeta. set (outn := fun v => nth v [[1; 2]; [0; 2]; [0; 1; 3]; [2]; []] []).
  assert (G : undirected_graph 5 outn).
  { intros u v Hu Hv. do 5 (destruct u as [|u]; [unfold outn in Hv |- *; simpl in Hv; repeat (destruct Hv as [<-|Hv]; [simpl; split; [lia|tauto]|]); destruct Hv|]). lia. }
  split; auto. split; [|split; [apply C67_returns; auto; lia|]].
  { intros u Hu Hi. do 5 (destruct u as [|u]; [unfold outn in Hi; simpl in Hi; lia|]). lia. }
  intros Q L H. assert (Ht : 5 <= 16) by lia. assert (Hd : 0 <> 1) by lia.
  destruct (C67_labels G Ht H (u := 0) (v := 1) (x := 2) (y := 1)) as (l & l' & E1 & E2 & _ & _ & S); try lia; [now left|unfold outn; simpl; auto|].
  destruct (C67_labels G Ht H (u := 0) (v := 1) (x := 2) (y := 3)) as (k & k' & F1 & F2 & _ & _ & S'); try lia; [now left|unfold outn; simpl; auto|].
  rewrite E1, E2, F2. assert (k = l) by congruence. subst k. split.
  - f_equal. apply S.
    assert (Hedge : forall c a b, In b (outn a) -> a <> c -> b <> c -> path_avoiding outn c a b)
      by (intros c a b Hab Ha Hb; econstructor; eauto; now constructor).
    intros c p q Hp Hq Hpc Hqc. simpl in Hp, Hq. destruct (Nat.eq_dec p q) as [<-|]; [now constructor|].
    apply Hedge; auto. destruct Hp as [->| ->], Hq as [->| ->]; unfold outn; simpl; tauto || congruence.
  - intros X. assert (El : l = k') by congruence. apply S' in El.
    specialize (El 2 0 3 (or_introl eq_refl) (or_intror eq_refl) ltac:(lia) ltac:(lia)).
    assert (Y : forall b, path_avoiding outn 2 0 b -> b = 0 \/ b = 1).
    { intros b Hb. induction Hb as [|u v _ IH Hin Hv]; [auto|]. unfold outn in Hin. destruct IH as [->| ->]; simpl in Hin; lia. }
    apply Y in El. lia.
Qed.
