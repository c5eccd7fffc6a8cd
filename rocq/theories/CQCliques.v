(* Chains of DG and cliques of the graph are in bijection. *)
From Coq Require Import Permutation Sorted.
From Verif Require Import Base ListUtil ISModel ISSpec CQModel CQSpec CQRec CQSetup CQCount.

Lemma NoDup_map_in {A B} (f : A -> B) l : (forall a b, In a l -> In b l -> f a = f b -> a = b) -> NoDup l -> NoDup (map f l).
Proof.
  intros H. induction 1 as [|a l Ha ND IH]; simpl; constructor.
  - intros X. apply in_map_iff in X as (b & E & Hb). apply Ha. rewrite (H a b); auto; [now left|now right].
  - apply IH. intros x y Hx Hy. apply H; now right.
Qed.
Lemma sorted_unique (ord : nat -> nat) l : forall l', StronglySorted (fun a b => ord a < ord b) l -> StronglySorted (fun a b => ord a < ord b) l' ->
  (forall x, In x l <-> In x l') -> l = l'.
Proof.
  induction l as [|a l IH]; intros l' H H' E.
  - destruct l' as [|b l']; auto. exfalso. apply (E b). now left.
  - destruct l' as [|b l']; [exfalso; apply (E a); now left|]. inversion H as [|? ? Hs Hf]; subst. inversion H' as [|? ? Hs' Hf']; subst. rewrite Forall_forall in Hf, Hf'.
    assert (a = b) as ->.
    { assert (In a (b :: l')) as [|X] by (apply E; now left); auto. assert (In b (a :: l)) as [|Y] by (apply E; now left); auto. specialize (Hf _ Y). specialize (Hf' _ X). lia. }
    f_equal. apply IH; auto. intros x. split; intros X.
    + assert (In x (b :: l')) as [->|] by (apply E; now right); auto. specialize (Hf _ X). lia.
    + assert (In x (b :: l)) as [->|] by (apply E; now right); auto. specialize (Hf' _ X). lia.
Qed.
Lemma inc_unique l l' : increasing l -> increasing l' -> (forall x, In x l <-> In x l') -> l = l'.
Proof. apply (@sorted_unique (fun x => x)). Qed.
Lemma sort_by (d : nat -> nat) l : exists o, Permutation o l /\ StronglySorted (fun a b => d a <= d b) o.
Proof.
  induction l as [|x l (o & Hp & Hs)]; [exists []; split; constructor|].
  enough (Y : exists o', Permutation o' (x :: o) /\ StronglySorted (fun a b => d a <= d b) o').
  { destruct Y as (o' & P & Q). exists o'. split; auto. rewrite P. now constructor. }
  clear Hp. induction o as [|y o IH]; [exists [x]; split; auto; repeat constructor|]. inversion Hs as [|? ? Hs1 Hf]; subst.
  destruct (Nat.le_gt_cases (d x) (d y)) as [Hxy|Hxy].
  - exists (x :: y :: o). split; auto. constructor; auto. constructor; auto. rewrite Forall_forall in *. intros z Hz. specialize (Hf z Hz). lia.
  - destruct (IH Hs1) as (o' & P & Q). exists (y :: o'). split; [rewrite P; apply perm_swap|]. constructor; auto. rewrite Forall_forall in *. intros z Hz.
    apply (Permutation_in _ P) in Hz as [<-|Hz]; [lia|auto].
Qed.
Lemma strict_sorted (d : nat -> nat) l : NoDup l -> (forall a b, In a l -> In b l -> d a = d b -> a = b) -> StronglySorted (fun a b => d a <= d b) l -> StronglySorted (fun a b => d a < d b) l.
Proof.
  intros ND Hi. induction 1 as [|a l Hs IH Hf]; constructor; apply NoDup_cons_iff in ND as [Ha ND].
  - apply IH; auto. intros x y Hx Hy. apply Hi; now right.
  - rewrite Forall_forall in *. intros b Hb. specialize (Hf b Hb). assert (d a <> d b); [|lia]. intros E. apply Ha. rewrite (Hi a b); auto; [now left|now right].
Qed.
Lemma ssort_filter {A} (R : A -> A -> Prop) p l : StronglySorted R l -> StronglySorted R (filter p l).
Proof. induction 1 as [|a l Hs IH Hf]; simpl; [constructor|]. destruct (p a); auto. constructor; auto. rewrite Forall_forall in *. intros x Hx. apply filter_In in Hx as [Hx _]. auto. Qed.
Lemma seq_inc a m : increasing (seq a m).
Proof. revert a. unfold increasing. induction m as [|m IH]; intros a; simpl; constructor; auto. rewrite Forall_forall. intros x Hx. apply in_seq in Hx. lia. Qed.

(* the sublists of an increasing list *)
Lemma subsets_iff k l : forall s, increasing l -> (In s (subsets k l) <-> length s = k /\ increasing s /\ incl s l).
Proof.
  revert k. induction l as [|x l IH]; intros k s Hl.
  - destruct k as [|k]; simpl.
    + split; [intros [<-|[]]; split; auto; split; [constructor|intros y []]|]. intros (H & _). destruct s; [now left|discriminate].
    + split; [intros []|]. intros (H1 & _ & H3). destruct s as [|y s]; [discriminate|]. apply (H3 y). now left.
  - inversion Hl as [|? ? Hl' Hf]; subst. rewrite Forall_forall in Hf. destruct k as [|k].
    + simpl. split; [intros [<-|[]]; split; auto; split; [constructor|intros y []]|]. intros (H & _). destruct s; [now left|discriminate].
    + cbn [subsets]. rewrite in_app_iff, in_map_iff. setoid_rewrite (IH _ _ Hl'). split.
      * intros [(s' & <- & H1 & H2 & H3)|(H1 & H2 & H3)].
        -- split; [simpl; auto|]. split; [constructor; auto; rewrite Forall_forall; intros y Hy; auto|]. intros y [<-|Hy]; [now left|right; auto].
        -- split; auto. split; auto. intros y Hy. right. auto.
      * intros (H1 & H2 & H3). destruct s as [|y s]; [discriminate|]. inversion H2 as [|? ? H4 H5]; subst. rewrite Forall_forall in H5.
        assert (Hs : forall z, In z s -> In z l).
        { intros z Hz. assert (In z (x :: l)) as [<-|] by (apply H3; now right); auto. exfalso. specialize (H5 _ Hz).
          assert (In y (x :: l)) as [->|Hy] by (apply H3; now left); [lia|]. specialize (Hf _ Hy). lia. }
        assert (In y (x :: l)) as [->|Hy] by (apply H3; now left).
        -- left. exists s. split; auto.
        -- right. split; auto. split; auto. intros z [<-|Hz]; auto.
Qed.
Lemma subsets_nodup l : forall k, increasing l -> NoDup (subsets k l).
Proof.
  induction l as [|x l IH]; intros k Hl; destruct k as [|k]; simpl; try (repeat constructor; auto; fail).
  inversion Hl as [|? ? Hl' Hf]; subst. apply NoDup_app_iff. split; [|split].
  - apply FinFun.Injective_map_NoDup; auto. intros a b E. now injection E.
  - now apply IH.
  - intros s Hs Hs'. apply in_map_iff in Hs as (s' & <- & _). apply subsets_iff in Hs' as (_ & _ & H); auto. rewrite Forall_forall in Hf. specialize (Hf x (H x (or_introl eq_refl))). lia.
Qed.

Section Bij.
  Variable n : nat.
  Variable outn : nat -> list nat.
  Hypothesis HG : sgraph n outn.
  Variable rank : nat -> nat.
  Hypothesis HR : is_rank n rank.
  Variable K : nat.
  Variable name : nat -> nat.                     (* the vertex of DG for a vertex of G *)
  Hypothesis Hname : forall u, u < n -> name u < n.
  Hypothesis Hninj : forall u v, u < n -> v < n -> name u = name v -> u = v.
  Variable dg : nat -> list nat.
  Hypothesis Hdg : forall u v, u < n -> v < n -> (In (name v) (dg (name u)) <-> rank u < rank v /\ K - 1 <= length (outn u) /\ K - 1 <= length (outn v) /\ In v (outn u)).
  Variable ord : nat -> nat.
  Hypothesis Hord : forall v w, In w (dg v) -> ord v < ord w.
  Hypothesis Hnd : NoDup (chains dg K (seq 0 n)).
  Notation ch := (chains dg K (seq 0 n)).
  Definition canon (c : list nat) : list nat := filter (fun v => has c (name v)) (seq 0 n).

  Lemma name_onto x : x < n -> exists u, u < n /\ name u = x.
  Proof.
    intros Hx. assert (H : incl (seq 0 n) (map name (seq 0 n))).
    { apply NoDup_length_incl.
      - apply NoDup_map_in; [|apply seq_NoDup]. intros a b Ha Hb. apply in_seq in Ha, Hb. apply Hninj; lia.
      - rewrite map_length. auto.
      - intros y Hy. apply in_map_iff in Hy as (u & <- & Hu). apply in_seq in Hu. apply in_seq. pose proof (@Hname u ltac:(lia)). lia. }
    specialize (H x ltac:(apply in_seq; lia)). apply in_map_iff in H as (u & <- & Hu). apply in_seq in Hu. exists u. split; auto. lia.
  Qed.
  Lemma in_canon c v : In v (canon c) <-> v < n /\ In (name v) c.
  Proof. unfold canon. rewrite filter_In, in_seq, has_In. intuition lia. Qed.
  Lemma canon_inc c : increasing (canon c).
  Proof. apply ssort_filter, seq_inc. Qed.
  Lemma chain_facts c : In c ch -> length c = K /\ NoDup c /\ (forall x, In x c -> x < n) /\ ForallOrdPairs (fun v w => In w (dg v)) c /\ StronglySorted (fun a b => ord a < ord b) c.
  Proof.
    intros H. pose proof (proj1 (@chains_iff dg K (seq 0 n) c) H) as (A & B & C). destruct (@chain_in dg ord Hord K (seq 0 n) c H) as (_ & D & _).
    split; auto. split; auto. split; [intros x Hx; apply B, in_seq in Hx; lia|]. split; auto. clear - C Hord. induction C as [|a l Hf C IH]; constructor; auto.
    rewrite Forall_forall in *. auto.
  Qed.
  Lemma canon_inj c c' : In c ch -> In c' ch -> canon c = canon c' -> c = c'.
  Proof.
    intros H H' E. apply chain_facts in H as (_ & _ & B & _ & S1), H' as (_ & _ & B' & _ & S2). apply (@sorted_unique ord); auto. intros x. split; intros Hx.
    - destruct (@name_onto x) as (u & Hu & <-); [auto|]. assert (X : In u (canon c)) by (apply in_canon; auto). rewrite E in X. now apply in_canon in X.
    - destruct (@name_onto x) as (u & Hu & <-); [auto|]. assert (X : In u (canon c')) by (apply in_canon; auto). rewrite <- E in X. now apply in_canon in X.
  Qed.
  Lemma fop_pair {A} (R : A -> A -> Prop) l a b : ForallOrdPairs R l -> In a l -> In b l -> a <> b -> R a b \/ R b a.
  Proof.
    induction 1 as [|x l Hf H IH]; [intros []|]. rewrite Forall_forall in Hf. intros [<-|Ha] [<-|Hb] Hne; auto. congruence.
  Qed.
  Lemma clique_iff s : is_clique outn s = true <-> forall u v, In u s -> In v s -> u <> v -> In v (outn u).
  Proof.
    unfold is_clique. rewrite forallb_forall. setoid_rewrite forallb_forall. split.
    - intros H u v Hu Hv Hne. specialize (H u Hu v Hv). apply Bool.orb_true_iff in H as [H|H]; [apply Nat.eqb_eq in H; congruence|now apply has_In].
    - intros H u Hu v Hv. destruct (Nat.eqb_spec u v); auto. cbn [orb]. apply has_In. auto.
  Qed.
  Lemma canon_clique c : In c ch -> In (canon c) (cliques n outn K).
  Proof.
    intros H. apply chain_facts in H as (A & ND & B & F & _). unfold cliques. apply filter_In. split.
    - apply subsets_iff; [apply seq_inc|]. split; [|split; [apply canon_inc|intros v Hv; apply in_canon in Hv as [Hv _]; apply in_seq; lia]].
      rewrite <- A. rewrite <- (map_length name (canon c)). apply Permutation_length. apply NoDup_Permutation; auto.
      + apply NoDup_map_in; [intros a b Ha Hb; apply in_canon in Ha as [Ha _], Hb as [Hb _]; now apply Hninj|]. apply inc_nodup, canon_inc.
      + intros x. rewrite in_map_iff. split; [intros (u & <- & Hu); now apply in_canon in Hu|]. intros Hx. destruct (@name_onto x) as (u & Hu & <-); [auto|]. exists u. split; auto. now apply in_canon.
    - apply clique_iff. intros u v Hu Hv Hne. apply in_canon in Hu as [Hu Hu'], Hv as [Hv Hv'].
      destruct (fop_pair F Hu' Hv') as [X|X]; [intros E; apply Hne; now apply Hninj| |]; apply Hdg in X as (_ & _ & _ & X); auto. now apply HG.
  Qed.
  Lemma clique_chain s : In s (cliques n outn K) -> exists c, In c ch /\ canon c = s.
  Proof.
    intros H. apply filter_In in H as [H1 H2]. apply subsets_iff in H1 as (HL & HI & HS); [|apply seq_inc]. rewrite clique_iff in H2.
    assert (Hsn : forall u, In u s -> u < n) by (intros u Hu; apply HS, in_seq in Hu; lia).
    assert (NDs : NoDup s) by now apply inc_nodup.
    assert (Hdeg : forall u, In u s -> K - 1 <= length (outn u)).
    { intros u Hu. apply in_split in Hu as (l1 & l2 & E). assert (X : length (l1 ++ l2) <= length (outn u)).
      { apply NoDup_incl_length; [rewrite E in NDs; now apply NoDup_remove_1 in NDs|]. intros v Hv. apply H2; [rewrite E; apply in_elt|rewrite E|].
        - apply in_app_iff in Hv. apply in_app_iff. simpl. tauto.
        - intros ->. rewrite E in NDs. now apply NoDup_remove_2 in NDs. }
      rewrite <- HL, E. rewrite app_length in *. simpl. lia. }
    destruct (sort_by rank s) as (o & Hp & Ho). apply strict_sorted in Ho; [|eapply Permutation_NoDup; [symmetry; exact Hp|auto]| ].
    2:{ intros a b Ha Hb. apply HR; apply Hsn; eapply Permutation_in; eauto. }
    exists (map name o). split.
    - apply chains_iff. split; [now rewrite map_length, (Permutation_length Hp)|]. split.
      + intros x Hx. apply in_map_iff in Hx as (u & <- & Hu). apply in_seq. pose proof (@Hname u (Hsn u (Permutation_in _ Hp Hu))). lia.
      + assert (Hos : forall u, In u o -> In u s) by (intros u; now apply Permutation_in). clear Hp. induction Ho as [|a l Ho IH Hf]; cbn [map]; constructor.
        * rewrite Forall_forall in *. intros x Hx. apply in_map_iff in Hx as (v & <- & Hv). specialize (Hf v Hv).
          assert (Ha : In a s) by (apply Hos; now left). assert (Hvs : In v s) by (apply Hos; now right). apply Hdg; auto. split; auto. split; auto. split; auto. apply H2; auto. intros ->. lia.
        * apply IH. intros u Hu. apply Hos. now right.
    - apply inc_unique; auto; [apply canon_inc|]. intros v. rewrite in_canon, in_map_iff. split.
      + intros (Hv & u & E & Hu). apply (Permutation_in _ Hp) in Hu. replace v with u; auto. 
      + intros Hv. split; auto. exists v. split; auto. now apply (Permutation_in _ (Permutation_sym Hp)).
  Qed.
  Theorem bijection : Permutation (map canon ch) (cliques n outn K).
  Proof.
    apply NoDup_Permutation.
    - apply NoDup_map_in; auto. intros a b Ha Hb. now apply canon_inj.
    - apply NoDup_filter, subsets_nodup, seq_inc.
    - intros s. rewrite in_map_iff. split; [intros (c & <- & Hc); now apply canon_clique|]. intros H. apply clique_chain in H as (c & Hc & E). exists c. auto.
  Qed.
  Theorem counts v : v < n -> occs (fun x => x) (name v) ch = length (filter (fun s => has s v) (cliques n outn K)).
  Proof.
    intros Hv. rewrite <- (Permutation_length (perm_filter (fun s => has s v) bijection)).
    assert (HF : forall c, In c ch -> In c ch) by auto. revert HF. generalize ch at 1 3 4 as L. intros L. induction L as [|c L IH]; intros HF; auto.
    unfold occs. cbn [map list_sum fold_right filter]. fold (list_sum (map (fun c => occ (name v) (map (fun x => x) c)) L)). fold (occs (fun x => x) (name v) L).
    rewrite IH by (intros; apply HF; now right). destruct (@chain_facts c (HF c (or_introl eq_refl))) as (_ & ND & _). rewrite map_id.
    assert (E : occ (name v) c = if has (canon c) v then 1 else 0); [|rewrite E; destruct (has (canon c) v); reflexivity].
    unfold occ. destruct (has (canon c) v) eqn:X.
    - apply has_In, in_canon in X as [_ X]. apply in_split in X as (l1 & l2 & ->). apply NoDup_remove_2 in ND. rewrite in_app_iff in ND. rewrite filter_app. cbn [filter]. rewrite Nat.eqb_refl, app_length. cbn [length].
      rewrite !filter_none; auto; intros x Hx; apply Nat.eqb_neq; intros ->; tauto.
    - apply has_false in X. rewrite filter_none; auto. intros x Hx. apply Nat.eqb_neq. intros ->. apply X, in_canon. auto.
  Qed.
End Bij.
