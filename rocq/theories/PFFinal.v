(* Proofs about the label propagation spanning forest: the recorded edges. *)
From Coq Require Import Permutation.
From Verif Require Import Base ListUtil VSModel EMModel EMSpec FASpec FAProofs UFSpec UFProps FRSpec CTSpec SPProofs JAForest JAProps
  RSModel RSLoops BTSpec BTFinal LPModel LPProofs PFModel PFSpec PFLoops.
Unset Strict Implicit.

Lemma filter_parts {A} (f : A -> bool) l : Permutation (filter f l ++ filter (fun x => negb (f x)) l) l.
Proof.
  induction l as [|x l IH]; simpl; auto. destruct (f x); simpl; [now constructor|].
  eapply Permutation_trans; [apply Permutation_sym, Permutation_middle|]. now constructor.
Qed.
Lemma glist_perm g l l' : Permutation l l' -> Permutation (glist g l) (glist g l').
Proof. intros H. unfold glist. now apply Permutation_flat_map. Qed.
(* the vertices of rank 0 keep a forest among themselves; the others own an edge to a lower rank *)
Lemma base_forest (rank : nat -> nat) (g : nat -> option (nat * nat)) : forall k (l : list nat), length l = k -> NoDup l ->
  (forall v e, In v l -> 0 < rank v -> g v = Some e -> owned rank v e) ->
  (forall v x y, In v l -> rank v = 0 -> g v = Some (x, y) -> rank x = 0 /\ rank y = 0) ->
  forest' (glist g (filter (fun v => rank v =? 0) l)) -> forest' (glist g l).
Proof.
  induction k as [|k IH]; intros l Hk Hnd H H0 HB.
  - destruct l; [|discriminate]. exact HB.
  - destruct (max_rank rank (l := l)) as (v & Hv & Hm); [destruct l; discriminate|].
    destruct (Nat.eq_dec (rank v) 0) as [Hz|Hz].
    { assert (E : filter (fun v => rank v =? 0) l = l); [|now rewrite E in HB].
      assert (X : forall w, In w l -> rank w = 0) by (intros w Hw; pose proof (Hm w Hw); lia). clear -X. induction l as [|x l IH]; auto.
      simpl. rewrite (X x) by now left. simpl. f_equal. apply IH. intros w Hw. apply X. now right. }
    apply in_split in Hv as (l1 & l2 & ->).
    assert (Hp : Permutation (glist g (l1 ++ l2) ++ match g v with Some e => [e] | None => [] end) (glist g (l1 ++ v :: l2))).
    { unfold glist. rewrite !flat_map_app. simpl. rewrite <- app_assoc. apply Permutation_app_head. apply Permutation_app_comm. }
    apply (forest'_perm Hp).
    assert (Hnv : ~ In v (l1 ++ l2)) by (apply NoDup_remove_2; auto).
    assert (Hsub : forall w, In w (l1 ++ l2) -> In w (l1 ++ v :: l2)).
    { intros w Hw. apply in_app_iff in Hw. apply in_app_iff. simpl. tauto. }
    assert (HT : forest' (glist g (l1 ++ l2))).
    { apply IH.
      - rewrite app_length in *. simpl in Hk. lia.
      - now apply NoDup_remove_1 in Hnd.
      - auto.
      - eauto.
      - rewrite filter_app in *. simpl in HB. rewrite (proj2 (Nat.eqb_neq _ _)) in HB by auto. exact HB. }
    destruct (g v) as [[a b]|] eqn:Eg; [|now rewrite app_nil_r].
    apply forest'_snoc; auto.
    destruct (H v (a, b)) as (p & Ep & Hr); auto; [apply in_app_iff; simpl; auto|lia|].
    assert (Hvp : v <> p) by (intros ->; lia).
    assert (Hfr : ~ connected (glist g (l1 ++ l2)) v p).
    { apply apart_fresh; auto. intros x y Hxy. unfold glist in Hxy. apply in_flat_map in Hxy as (w & Hw & Hxy).
      destruct (g w) as [e|] eqn:Ew; [|easy]. destruct Hxy as [->|[]].
      pose proof (Hsub w Hw) as Hwl. destruct (Nat.eq_dec (rank w) 0) as [Hw0|Hw0].
      - destruct (H0 w x y Hwl Hw0 Ew) as [X Y]. split; intros ->; lia.
      - destruct (H w (x, y) Hwl ltac:(lia) Ew) as (q & Eq & Hq). pose proof (Hm w Hwl).
        assert (w <> v) by (intros ->; contradiction). assert (q <> v) by (intros ->; lia).
        destruct Eq as [E|E]; injection E as -> ->; auto. }
    destruct Ep as [E|E]; injection E as -> ->; auto. intros C. apply Hfr. now apply csym.
Qed.

Section End.
  Variable largest : nat.
  Notation key := (lkey largest).
  Variable n : nat.
  Variable outn : nat -> list nat.
  Hypothesis G : graph_ok n outn outn.
  Variable par0 : nat -> nat.
  Variable Ed0 : nat -> option (nat * nat).
  Variables (k : nat) (prev par chg : nat -> nat) (Ed : nat -> option (nat * nat)) (U : vset unit) (F : list nat).
  Hypothesis HI : QInv largest n outn par0 Ed0 k prev par chg Ed U F.
  Hypothesis Hend : size U = 0.

  Lemma in_recorded g x y : In (x, y) (recorded n g) <-> exists v, v < n /\ g v = Some (x, y).
  Proof.
    unfold recorded. rewrite in_flat_map. split.
    - intros (v & Hv & H). apply in_seq in Hv. destruct (g v) as [e|] eqn:E; [|easy]. destruct H as [->|[]]. exists v. split; auto. lia.
    - intros (v & Hv & E). exists v. split; [apply in_seq; lia|]. rewrite E. now left.
  Qed.
  Lemma pair_edge u v : In (u, v) (pairs n outn) -> u < n /\ v < n /\ reachable outn u v.
  Proof.
    intros H. apply in_pairs in H as [A B]. split; auto. split; [eapply g_out; eauto|]. exists 1. now apply walk_1.
  Qed.

  (* the round in which the label of v reached it *)
  Definition reached_at (v r : nat) : Prop :=
    r = 0 /\ par v = par0 v /\ Ed v = Ed0 v \/
    exists p j u, r = S j /\ p < n /\ In v (outn p) /\ (Ed v = Some (p, v) \/ Ed v = Some (v, p)) /\
      u < n /\ walk outn u j p /\ par v = par0 u /\
      forall w i, w < n -> walk outn w i v -> i <= j -> key (par v) < key (par0 w).
  Lemma ranks : exists rank, forall v, v < n -> reached_at v (rank v).
  Proof.
    apply (@finite_choice n reached_at). intros v Hv. destruct (q_edge HI Hv) as [H|(p & j & u & A1 & A2 & A3 & A4 & A5 & A6 & A7 & A8)].
    - exists 0. now left.
    - exists (S j). right. exists p, j, u. repeat split; auto.
  Qed.
  Section Ranked.
    Variable rank : nat -> nat.
    Hypothesis HR : forall v, v < n -> reached_at v (rank v).
    Lemma rank_zero v : v < n -> (rank v = 0 <-> par v = par0 v).
    Proof.
      intros Hv. destruct (HR Hv) as [(E & E' & _)|(p & j & u & E & _ & _ & _ & _ & _ & _ & H)]; [tauto|].
      split; [lia|]. intros X. pose proof (H v 0 Hv (walk_0 outn v) ltac:(lia)). rewrite X in H0. lia.
    Qed.
    Lemma rank_edge v : v < n -> rank v <> 0 -> exists p, p < n /\ In v (outn p) /\ (Ed v = Some (p, v) \/ Ed v = Some (v, p)) /\ rank p < rank v.
    Proof.
      intros Hv Hz. destruct (HR Hv) as [(E & _)|(p & j & u & E & Hp & Hpv & He & Hu & Hw & Hl & _)]; [congruence|].
      exists p. repeat (split; auto). rewrite E.
      destruct (HR Hp) as [(Ep & _)|(p' & j' & u' & Ep & _ & _ & _ & _ & _ & _ & Hno)]; [lia|].
      rewrite Ep. destruct (Nat.le_gt_cases j j') as [X|X]; [|lia]. exfalso. pose proof (Hno u j Hu Hw X) as Y.
      assert (E1 : par v = par p) by (apply (end_same G HI Hend Hp); exists 1; now apply walk_1).
      rewrite <- E1, Hl in Y. lia.
    Qed.
    Lemma keeps v : v < n -> rank v = 0 -> Ed v = Ed0 v.
    Proof. intros Hv Hz. destruct (HR Hv) as [(_ & _ & E)|(p & j & u & E & _)]; [auto|congruence]. Qed.

    Hypothesis HL : labelled_forest n outn par0 Ed0.
    Lemma first_edge v x y : v < n -> Ed0 v = Some (x, y) -> x < n /\ y < n /\ par0 x = par0 v /\ par0 y = par0 v /\ reachable outn v x /\ reachable outn v y.
    Proof.
      intros Hv E. assert (Hin : In (x, y) (recorded n Ed0)) by (apply in_recorded; eauto).
      destruct (pair_edge (l_edges HL Hin)) as (Hx & Hy & Hr). pose proof (l_owner HL Hv E) as Ho.
      assert (Hxy : par0 x = par0 y) by (apply (l_trees HL); auto; now apply rst_step).
      assert (Hvx : reachable outn v x).
      { apply (connected_reach G Hv). apply (conn_mono (l_edges HL)). apply (l_trees HL); auto. }
      repeat (split; auto); [congruence|]. eapply reach_trans; eauto.
    Qed.
    Lemma zero_class u v : u < n -> v < n -> reachable outn u v -> par0 u = par0 v -> rank u = 0 -> rank v = 0.
    Proof.
      intros Hu Hv Hr E Hz. apply rank_zero; auto. apply rank_zero in Hz; auto. rewrite (end_same G HI Hend Hu Hr). congruence.
    Qed.
    Lemma all_edges : incl (recorded n Ed) (pairs n outn).
    Proof.
      intros [x y] H. apply in_recorded in H as (v & Hv & E). destruct (Nat.eq_dec (rank v) 0) as [Hz|Hz].
      - rewrite (keeps Hv Hz) in E. apply (l_edges HL). apply in_recorded. eauto.
      - destruct (rank_edge Hv Hz) as (p & Hp & Hpv & He & _). apply in_pairs.
        destruct He as [He|He]; rewrite He in E; injection E as <- <-; split; auto. now apply (g_dual G).
    Qed.
    Lemma all_forest : forest' (recorded n Ed).
    Proof.
      change (forest' (glist Ed (seq 0 n))). apply (base_forest (rank := rank) (k := length (seq 0 n))); auto using seq_NoDup.
      - intros v e Hv Hz He. apply in_seq in Hv. destruct (@rank_edge v) as (p & Hp & Hpv & Hc & Hr); [lia|lia|].
        exists p. split; auto. rewrite He in Hc. destruct Hc as [X|X]; injection X as ->; auto.
      - intros v x y Hv Hz He. apply in_seq in Hv. rewrite (@keeps v) in He; [|lia|auto].
        assert (Hvn : v < n) by lia. destruct (first_edge Hvn He) as (Hx & Hy & E1 & E2 & R1 & R2).
        split; [apply (@zero_class v x)|apply (@zero_class v y)]; auto.
      - rewrite (@glist_ext Ed Ed0) by (intros v Hv; apply filter_In in Hv as [Hv Hz]; apply in_seq in Hv; apply Nat.eqb_eq in Hz; apply keeps; auto; lia).
        apply (@forest'_prefix _ (glist Ed0 (filter (fun v => negb (rank v =? 0)) (seq 0 n)))).
        unfold glist at 1 2. rewrite <- flat_map_app. fold (glist Ed0 (filter (fun v => rank v =? 0) (seq 0 n) ++ filter (fun v => negb (rank v =? 0)) (seq 0 n))).
        eapply forest'_perm; [apply glist_perm, Permutation_sym, filter_parts|]. apply forest_unweighted. exact (l_forest HL).
    Qed.
    Lemma to_base : forall r v, rank v <= r -> v < n -> exists b, b < n /\ rank b = 0 /\ connected (recorded n Ed) v b /\ reachable outn v b.
    Proof.
      induction r as [|r IH]; intros v Hr Hv.
      - exists v. repeat split; auto; [lia|apply rst_refl|apply reach_refl].
      - destruct (Nat.eq_dec (rank v) 0) as [Hz|Hz]; [exists v; repeat split; auto; [apply rst_refl|apply reach_refl]|].
        destruct (rank_edge Hv Hz) as (p & Hp & Hpv & He & Hlt). destruct (IH p ltac:(lia) Hp) as (b & Hb & Hbz & Hc & Hrb).
        exists b. repeat split; auto.
        + eapply ctrans; [|exact Hc]. destruct He as [He|He]; [apply csym|]; apply rst_step, in_recorded; eauto.
        + eapply reach_trans; [|exact Hrb]. exists 1. apply walk_1. now apply (g_dual G).
    Qed.
    Lemma base_joined x y : x < n -> connected (recorded n Ed0) x y -> rank x = 0 -> connected (recorded n Ed) x y.
    Proof.
      intros Hx C. assert (X : x = y \/ x < n /\ y < n /\ (rank x = 0 <-> rank y = 0) /\ (rank x = 0 -> connected (recorded n Ed) x y)).
      { clear Hx. induction C as [a b H|a|a b _ IH|a b c _ IH1 _ IH2].
        - right. apply in_recorded in H as (v & Hv & E). destruct (first_edge Hv E) as (Ha & Hb & E1 & E2 & R1 & R2).
          pose proof (reach_sym G Hv R1) as R1'. pose proof (reach_sym G Hv R2) as R2'.
          split; auto. split; auto. split.
          + split; intros Z.
            * apply (@zero_class v b); auto. apply (@zero_class a v); auto.
            * apply (@zero_class v a); auto. apply (@zero_class b v); auto.
          + intros Z. apply rst_step, in_recorded. exists v. split; auto. rewrite keeps; auto. apply (@zero_class a v); auto.
        - now left.
        - destruct IH as [->|(A & B & D & E)]; auto. right. split; [assumption|]. split; [assumption|]. split; [tauto|]. intros Z. apply csym. apply E. tauto.
        - destruct IH1 as [->|(A & B & D & E)]; auto. destruct IH2 as [<-|(A' & B' & D' & E')]; [right; auto|].
          right. split; [assumption|]. split; [assumption|]. split; [tauto|]. intros Z. eapply ctrans; [apply E; auto|]. apply E'. tauto. }
      destruct X as [->|(_ & _ & _ & X)]; auto. intros _. apply rst_refl.
    Qed.
    Lemma joined x y : x < n -> y < n -> reachable outn x y -> connected (recorded n Ed) x y.
    Proof.
      intros Hx Hy Hr. destruct (to_base (le_n (rank x)) Hx) as (a & Ha & Za & Ca & Ra). destruct (to_base (le_n (rank y)) Hy) as (b & Hb & Zb & Cb & Rb).
      assert (Hab : reachable outn a b).
      { apply (reach_trans (v := x)); [exact (reach_sym G Hx Ra)|]. apply (reach_trans (v := y)); auto. }
      assert (E : par0 a = par0 b).
      { rewrite <- (proj1 (rank_zero Ha) Za), <- (proj1 (rank_zero Hb) Zb). symmetry. now apply (end_same G HI Hend Ha). }
      eapply ctrans; [exact Ca|]. eapply ctrans; [|apply csym; exact Cb]. apply base_joined; auto. now apply (l_trees HL).
    Qed.
  End Ranked.

  Lemma pf_spanning : labelled_forest n outn par0 Ed0 ->
    spanning_forest (unweighted (pairs n outn)) (unweighted (recorded n Ed)) /\
    forall x y, x < n -> y < n -> (par x = par y <-> connected (pairs n outn) x y).
  Proof.
    intros HL. destruct ranks as [rank HR]. split.
    - apply (@spanning_of n).
      + intros u v H. destruct (pair_edge H) as (A & B & _). auto.
      + now apply (all_edges HR).
      + now apply (all_forest HR).
      + intros x y Hx Hy C. apply (joined HR HL); auto. now apply (connected_reach G Hx).
    - intros x y Hx Hy. split.
      + intros E. destruct (end_val HI Hx) as (u & Hu & Ru & Eu). destruct (end_val HI Hy) as (w & Hw & Rw & Ew).
        assert (C : forall a b, a < n -> reachable outn a b -> connected (pairs n outn) a b).
        { intros a b Ha [j Hj]. induction Hj as [|j b c Hj IH Hbc]; [apply rst_refl|]. eapply ctrans; [exact IH|].
          apply rst_step, in_pairs. split; auto. eapply walk_lt; eauto. }
        eapply ctrans; [apply csym, (C u x); auto|]. eapply ctrans; [|apply (C w y); auto].
        apply (conn_mono (l_edges HL)). apply (l_trees HL); auto. congruence.
      + intros C. apply (connected_reach G Hx) in C. symmetry. now apply (end_same G HI Hend Hx).
  Qed.

  (* from distinct labels: breadth-first search trees *)
  Lemma pf_bfs v : (forall x y, x < n -> y < n -> par0 x = par0 y -> x = y) -> (forall x, Ed0 x = None) -> v < n ->
    exists r, r < n /\ reachable outn r v /\ (forall u, reachable outn r u -> key (par0 r) <= key (par0 u)) /\
      (v = r /\ Ed v = None \/ v <> r /\ exists p, closer outn false r v p /\ (Ed v = Some (p, v) \/ Ed v = Some (v, p))).
  Proof.
    intros Hinj HE Hv. destruct (q_edge HI Hv) as [[E1 E2]|(p & j & u & A1 & A2 & A3 & A4 & A5 & A6 & A7 & A8)].
    - exists v. split; auto. split; [apply reach_refl|]. split; [|rewrite E2; auto].
      intros u Hr. rewrite <- E1. now apply (end_least G HI Hend).
    - assert (Hup : reachable outn u p) by now exists j.
      assert (Huv : reachable outn u v) by (eapply reach_trans; [exact Hup|exists 1; now apply walk_1]).
      exists u. split; auto. split; auto. split.
      + intros w Hr. rewrite <- A6, (end_same G HI Hend A4 Huv). now apply (end_least G HI Hend).
      + right. split.
        * intros ->. pose proof (A8 u 0 Hv (walk_0 outn u) ltac:(lia)). rewrite A6 in H. lia.
        * exists p. split; auto. split; auto. exists j.
          assert (Hno : forall i w, w < n -> i <= j -> walk outn w i v -> par0 w <> par0 u).
          { intros i w Hw Hi Hwk E. pose proof (A8 w i Hw Hwk Hi). rewrite E, A6 in H. lia. }
          split; [|split; [|discriminate]].
          -- split; auto. intros i Hi Hwk. apply (Hno (S i) u); auto. econstructor; eauto.
          -- split; [econstructor; eauto|]. intros i Hi Hwk. apply (Hno i u); auto. lia.
  Qed.
End End.
