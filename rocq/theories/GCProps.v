(* Theorems for C40. *)
From Coq Require Import ZArith Permutation.
From Verif Require Import Base ListUtil VSModel VSSpec EMModel BKSpec KCSpec KCProofs CDModel CDProofs GCModel GCSpec GCProofs.

(* C40: the colouring of a symmetric graph, for both orders, every permutation P, every traversal edgeMap
   may pick and every interleaving.  A result exists; rounds make progress until all vertices are
   coloured, so at most n rounds; every vertex gets the colour the sequential rule
   gives it in the order "earlier"; adjacent vertices have different colours. *)
Theorem C40_coloring : forall n outn m lf P, symmetric n outn ->
  (forall u v, u < n -> v < n -> P u = P v -> u = v) ->
  (exists colors, coloring_returns n outn m lf P colors) /\
  (forall f colors p U, gc_loop n outn m lf P f colors p U -> f <= n /\
     (f <> n -> 0 < size U /\ exists colors' p' U', gc_loop n outn m lf P (f + size U) colors' p' U')) /\
  (forall colors, coloring_returns n outn m lf P colors ->
     (forall v, v < n -> exists c, colors v = Some c /\
        first_free (length (outn v)) (fun i => exists u, In u (outn v) /\ earlier outn lf P u v = true /\ colors u = Some i) c) /\
     (forall u v, u < n -> In v (outn u) -> u <> v -> colors u <> colors v)).
Proof.
  intros n outn m lf P Hs Hp. split; [|split].
  - eapply gc_returns_from with (k := n); eauto; [|apply gc_start]. lia.
  - intros f colors p U HL. destruct (gi_loop Hs Hp HL) as (Dn & R & HI). split; [eapply gi_le; eauto|]. now apply (gc_step Hs Hp HL).
  - intros colors (p & U & HL). destruct (gi_loop Hs Hp HL) as (Dn & R & HI). pose proof (gi_all HI) as Hall.
    assert (Hg : forall v, v < n -> greedy outn lf P colors v) by (intros v Hv; apply (gi_col HI); auto).
    split; [exact Hg|]. intros u v Hu Hv N. destruct (sym_adj Hs v Hu Hv) as [Hvn Huv].
    destruct (Hg u Hu) as (cu & Eu & Fu). destruct (Hg v Hvn) as (cv & Ev & Fv).
    destruct (@earlier_total n outn lf P Hp u v Hu Hvn N) as [X|X].
    + rewrite Ev. eapply greedy_low; eauto.
    + rewrite Eu. intros E. symmetry in E. revert E. eapply greedy_low; eauto.
Qed.
Print Assumptions C40_coloring.

(* The colour of a vertex is below its degree, 0 for an isolated vertex, or its degree plus one:
   at most max degree + 2 colours. *)
Theorem C40_colors : forall n outn m lf P Delta, symmetric n outn ->
  (forall u v, u < n -> v < n -> P u = P v -> u = v) -> (forall v, v < n -> length (outn v) <= Delta) ->
  forall colors, coloring_returns n outn m lf P colors ->
  forall v, v < n -> exists c, colors v = Some c /\ c < Delta + 2 /\
    (c < length (outn v) \/ (length (outn v) = 0 /\ c = 0) \/ (0 < length (outn v) /\ c = length (outn v) + 1)).
Proof.
  intros n outn m lf P Delta Hs Hp Hd colors Hr v Hv. destruct (C40_coloring m lf P Hs Hp) as (_ & _ & H). destruct (H colors Hr) as [Hc _].
  destruct (Hc v Hv) as (c & Ec & Fc). exists c. split; auto. specialize (Hd v Hv).
  destruct Fc as [(A & B & C)|[[A B]|(A & B & C)]]; split; auto; lia.
Qed.
Print Assumptions C40_colors.

(* Max degree + 1 colours do not suffice: a triangle and a separate edge have max degree 2, and every
   result uses the four colours 0, 1, 2, 3. *)
Definition tri_edge (v : nat) : list nat := nth v [[1; 2]; [0; 2]; [0; 1]; [4]; [3]] [].
Lemma tri_sym : symmetric 5 tri_edge.
Proof.
  split.
  - intros u v Hu. do 5 (destruct u as [|u]; [simpl; intros H; repeat (destruct H as [<-|H]; [lia|]); destruct H|]). lia.
  - intros u v Hu Hv. do 5 (destruct u as [|u]; [do 5 (destruct v as [|v]; [reflexivity|]); lia|]). lia.
Qed.
Theorem C40_delta_colors_refuted : exists n outn Delta, symmetric n outn /\ (forall v, v < n -> length (outn v) <= Delta) /\
  exists P, (forall u v, u < n -> v < n -> P u = P v -> u = v) /\
  forall m lf, (exists colors, coloring_returns n outn m lf P colors) /\
  forall colors, coloring_returns n outn m lf P colors ->
    exists vs, NoDup (map colors vs) /\ length vs = Delta + 2 /\ forall v, In v vs -> v < n /\ colors v <> None.
Proof.
  exists 5, tri_edge, 2. split; [apply tri_sym|]. split.
  { intros v Hv. do 5 (destruct v as [|v]; [simpl; lia|]). lia. }
  exists (fun v => v). split; [auto|]. intros m lf. destruct (@C40_coloring 5 tri_edge m lf (fun v => v) tri_sym) as (A & _ & B); auto. split; auto.
  intros colors Hr. destruct (B colors Hr) as [Hc _]. exists [0; 1; 4; 2].
  assert (H0 : colors 0 = Some 0).
  { destruct (Hc 0) as (c & -> & F); [lia|]. f_equal. destruct F as [(F1 & F2 & F3)|[[F1 F2]|(F1 & F2 & F3)]]; auto.
    - destruct c; auto. destruct (F3 0) as (u & Hu & He & _); [lia|]. exfalso. destruct Hu as [<-|[<-|[]]]; destruct lf; discriminate.
    - exfalso. destruct (F2 0) as (u & Hu & He & _); [simpl; lia|]. destruct Hu as [<-|[<-|[]]]; destruct lf; discriminate. }
  assert (H3 : colors 3 = Some 0).
  { destruct (Hc 3) as (c & -> & F); [lia|]. f_equal. destruct F as [(F1 & F2 & F3)|[[F1 F2]|(F1 & F2 & F3)]]; auto.
    - simpl in F1. lia.
    - exfalso. destruct (F2 0) as (u & Hu & He & _); [simpl; lia|]. destruct Hu as [<-|[]]; destruct lf; discriminate. }
  assert (H1 : colors 1 = Some 1).
  { destruct (Hc 1) as (c & -> & F); [lia|]. f_equal. destruct F as [(F1 & F2 & F3)|[[F1 F2]|(F1 & F2 & F3)]].
    - simpl in F1. destruct c as [|[|c]]; auto; [|lia]. exfalso. apply F2. exists 0. split; [now left|]. split; auto. now destruct lf.
    - discriminate.
    - exfalso. destruct (F2 1) as (u & Hu & He & E); [simpl; lia|]. destruct Hu as [<-|[<-|[]]]; [congruence|destruct lf; discriminate]. }
  assert (H2 : colors 2 = Some 3).
  { destruct (Hc 2) as (c & -> & F); [lia|]. f_equal. destruct F as [(F1 & F2 & F3)|[[F1 F2]|(F1 & F2 & F3)]]; auto; [|discriminate].
    exfalso. apply F2. simpl in F1. destruct c as [|[|c]]; [exists 0|exists 1|lia]; (split; [simpl; tauto|]); (split; [now destruct lf|auto]). }
  assert (H4 : colors 4 = Some 2).
  { destruct (Hc 4) as (c & -> & F); [lia|]. f_equal. destruct F as [(F1 & F2 & F3)|[[F1 F2]|(F1 & F2 & F3)]]; auto; [|discriminate].
    simpl in F1. assert (c = 0) as -> by lia. exfalso. apply F2. exists 3. split; [now left|]. split; auto. now destruct lf. }
  split; [|split; [reflexivity|]].
  - cbn [map]. rewrite H0, H1, H2, H4. repeat constructor; simpl; intuition congruence.
  - intros v Hv. repeat (destruct Hv as [<-|Hv]; [split; [lia|congruence]|]). destruct Hv.
Qed.
Print Assumptions C40_delta_colors_refuted.
