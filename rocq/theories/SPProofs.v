(* Proofs about work-efficient spanning forest. *)
From Coq Require Import Permutation Sorted.
From Verif Require Import Base ListUtil GBModel GBSpec HTModel HTSpec HTProofs HTFull HTProps
  SFModel LDModel LDSpec LDProofs UFSpec FRSpec FRProofs CTModel CTSpec CTProofs WCProofs SPModel.
Notation pair := (nat * nat)%type.

Lemma ends_unweighted l : ends (unweighted l) = l.
Proof. unfold ends, unweighted. rewrite map_map. unfold src, dst. simpl. induction l as [|[u v] l IH]; simpl; congruence. Qed.
Definition forest' (T : list pair) : Prop := forall l1 e l2, T = l1 ++ e :: l2 -> ~ connected (l1 ++ l2) (fst e) (snd e).
Lemma forest_unweighted T : forest (unweighted T) <-> forest' T.
Proof.
  split.
  - intros H l1 [u v] l2 -> Hc. apply (H (unweighted l1) (u, v, tt) (unweighted l2)).
    + unfold unweighted. now rewrite map_app.
    + unfold unweighted. rewrite <- map_app. fold (unweighted (l1 ++ l2)). now rewrite ends_unweighted.
  - intros H l1 [[u v] w] l2 E Hc. unfold unweighted in E. apply map_eq_app in E as (k1 & k2 & -> & E1 & E2).
    destruct k2 as [|[u' v'] k2]; [easy|]. simpl in E2. injection E2 as <- <- <- E2. subst l1 l2.
    apply (H k1 (u', v') k2); auto. simpl. unfold src, dst in Hc. simpl in Hc.
    fold (unweighted k1) in Hc. fold (unweighted k2) in Hc. unfold unweighted in Hc. rewrite <- map_app in Hc. fold (unweighted (k1 ++ k2)) in Hc.
    now rewrite ends_unweighted in Hc.
Qed.
Lemma forest'_snoc T u v : forest' T -> ~ connected T u v -> forest' (T ++ [(u, v)]).
Proof.
  rewrite <- !forest_unweighted. intros H Hn. unfold unweighted. rewrite map_app. fold (unweighted T). simpl.
  apply forest_snoc; auto. now rewrite ends_unweighted.
Qed.
Lemma forest'_perm T T' : Permutation T T' -> forest' T -> forest' T'.
Proof.
  intros HP H l1 e l2 -> Hc. assert (Hin : In e T) by (eapply Permutation_in; [apply Permutation_sym, HP|apply in_elt]).
  apply in_split in Hin as (k1 & k2 & ->). apply (H k1 e k2 eq_refl).
  assert (HP' : Permutation (k1 ++ k2) (l1 ++ l2)) by (eapply Permutation_app_inv; exact HP).
  eapply conn_incl; [|exact Hc]. intros x Hx. eapply Permutation_in; [apply Permutation_sym, HP'|exact Hx].
Qed.
Lemma forest'_prefix T T' : forest' (T ++ T') -> forest' T.
Proof.
  intros H l1 e l2 -> Hc. apply (H l1 e (l2 ++ T')); [now rewrite <- app_assoc|].
  eapply conn_incl; [|exact Hc]. intros x Hx. rewrite app_assoc. apply in_or_app. auto.
Qed.

(* -- the tree edges of one level -------------------------------------------------------------------- *)
Section Trees.
  Variable n : nat.
  Variable outn : nat -> list nat.
  Hypothesis G : undirected n outn.
  Variable clusters : list nat.
  Variable k : nat.
  Variable clu par : nat -> option nat.
  Hypothesis D : decomposed n outn clusters k clu par.
  Notation T0 := (tree_edges n par).

  Lemma tree_In u v : In (u, v) T0 <-> v < n /\ par v = Some u /\ u <> v.
  Proof.
    unfold tree_edges. rewrite filter_In, in_map_iff. simpl. rewrite Bool.negb_true_iff, Nat.eqb_neq. split.
    - intros ((i & E & Hi) & Hne). apply in_seq in Hi. injection E as E <-. split; [lia|]. split; auto.
      destruct (par i) as [x|] eqn:Ei; [congruence|]. exfalso.
      destruct (d_tree D) with (v := i) as (c & q & _ & H); [lia|]. inversion H; subst; congruence.
    - intros (Hv & E & Hne). split; auto. exists v. rewrite E. split; auto. apply in_seq. lia.
  Qed.
  Lemma tree_edge u v : In (u, v) T0 -> u < n /\ In v (outn u) /\ clu u = clu v.
  Proof.
    intros H. apply tree_In in H as (Hv & E & Hne). destruct (@d_tree _ _ _ _ _ _ D _ Hv) as (c & q & Hc & H).
    inversion H; subst; [congruence|]. assert (p = u) by congruence. subst p.
    match goal with A : in_cluster _ _ _ _ _ u |- _ => pose proof (in_cluster_clu A); apply (in_cluster_conn G Hc) in A as [_ A] end.
    repeat split; auto. congruence.
  Qed.
  Lemma tree_connected u v : u < n -> v < n -> (connected T0 u v <-> cl clusters u = cl clusters v).
  Proof.
    intros Hu Hv. rewrite (d_same D Hu Hv). split.
    - assert (X : forall x y, connected T0 x y -> clu x = clu y).
      { intros x y H. induction H as [x y H| | |]; auto; [apply (@tree_edge _ _ H)|congruence]. }
      apply X.
    - assert (X : forall c q x, c < n -> in_cluster outn clu par c q x -> connected T0 c x).
      { intros c q x Hc H. induction H as [|q p x H IH E Hne Hin E2]; [apply rst_refl|].
        eapply rst_trans; [exact IH|]. apply rst_step, tree_In. apply (in_cluster_conn G Hc) in H as [_ Hp].
        destruct (@G _ _ Hp Hin). auto. }
      intros E. destruct (@d_tree _ _ _ _ _ _ D _ Hu) as (c & q & Hc & A), (@d_tree _ _ _ _ _ _ D _ Hv) as (d & r & Hd & B).
      pose proof (in_cluster_clu A). pose proof (in_cluster_clu B). assert (c = d) by congruence. subst d.
      eapply rst_trans; [apply rst_sym|]; eapply X; eauto.
  Qed.

  Inductive anc (v : nat) : nat -> Prop :=
  | anc_refl : anc v v
  | anc_step w p : par w = Some p -> p <> w -> anc v p -> anc v w.
  Lemma depth_unique c q v : in_cluster outn clu par c q v -> forall c' q', in_cluster outn clu par c' q' v -> q = q'.
  Proof.
    intros H. induction H as [|q p v H IH E Hne Hin E2]; intros c' q' H'; inversion H'; subst; auto; try congruence.
    f_equal. assert (p0 = p) by congruence. subst p0. eauto.
  Qed.
  Lemma anc_depth v x : anc v x -> forall c q c' q', in_cluster outn clu par c q v -> in_cluster outn clu par c' q' x -> q <= q'.
  Proof.
    intros H. induction H as [|w p E Hne H IH]; intros c q c' q' A B.
    - rewrite (depth_unique A B). auto.
    - inversion B; subst; [congruence|]. assert (p0 = p) by congruence. subst p0. apply le_S. eauto.
  Qed.
  Lemma tree_NoDup : NoDup (map snd T0).
  Proof.
    unfold tree_edges. assert (X : forall l, NoDup l -> NoDup (map snd (filter (fun e : pair => negb (fst e =? snd e)) (map (fun i => (match par i with Some p => p | None => S n end, i)) l))) /\
      forall x, In x (map snd (filter (fun e : pair => negb (fst e =? snd e)) (map (fun i => (match par i with Some p => p | None => S n end, i)) l))) -> In x l).
    { induction 1 as [|i l Hi Hl [IH1 IH2]]; [simpl; split; [constructor|easy]|].
      cbn [map filter]. destruct (negb _); cbn [map snd]; split; auto.
      - constructor; auto.
      - intros x [<-|Hx]; [now left|right; auto].
      - intros x Hx. right. auto. }
    apply X, seq_NoDup.
  Qed.
  Lemma tree_forest : forest' T0.
  Proof.
    intros l1 [p v] l2 E Hc. simpl in Hc.
    assert (Hin : In (p, v) T0) by (rewrite E; apply in_elt).
    pose proof Hin as Hin'. apply tree_In in Hin' as (Hv & Ep & Hne).
    pose proof tree_NoDup as Hnd. rewrite E, map_app in Hnd. simpl in Hnd. apply NoDup_remove_2 in Hnd. rewrite <- map_app in Hnd.
    assert (X : forall x y, connected (l1 ++ l2) x y -> (anc v x <-> anc v y)).
    { intros x y H. induction H as [x y H| | |]; try tauto.
      assert (Hy : y <> v). { intros ->. apply Hnd. change v with (snd (x, v)). now apply in_map. }
      assert (HT : In (x, y) T0) by (rewrite E; apply in_app_or in H as [H|H]; apply in_or_app; [now left|right; now right]).
      apply tree_In in HT as (_ & Ey & Hxy). split; intros A.
      - eapply anc_step; eauto.
      - inversion A; subst; [congruence|]. congruence. }
    apply X in Hc. assert (A : anc v p) by (apply Hc; constructor).
    destruct (@d_tree _ _ _ _ _ _ D _ Hv) as (c & q & Hc' & B). inversion B; subst; [congruence|].
    assert (p0 = p) by congruence. subst p0.
    match goal with C : in_cluster _ _ _ _ ?q p |- _ => pose proof (anc_depth A B C) end. lia.
  Qed.
End Trees.

Section Merge.
  Variable hash : nat -> nat.
  Variable sort : list (edge unit) -> list (edge unit).
  Hypothesis Hsort : sorts sort.
  Variable n : nat.
  Variable outn : nat -> list nat.
  Hypothesis G : undirected n outn.
  Variable mu : nat -> nat -> pair.
  Variable clusters : list nat.
  Variable k : nat.
  Variable clu par : nat -> option nat.
  Hypothesis D : decomposed n outn clusters k clu par.
  Variable t : table pair.
  Variable es : list (nat * nat * pair).
  Variable mapping : list nat.
  Variable GC : csr unit.
  Hypothesis HC : contracts no_edge hash sort n outn mu clusters k t es mapping GC.
  Notation cl := (cl clusters).
  Notation out c := (outside n outn clusters c).
  Notation F := (flags es).

  Lemma F_inj i j : out i -> out j -> F i = F j -> i = j.
  Proof. destruct HC as [t o1 o2 mp GC Ht es Hp1 E1 Hp2 E2]. eapply flags_inj; eauto. apply (d_lt D). Qed.
  Lemma F_lt i j : out i -> i < j -> F i < F j.
  Proof. destruct HC as [t o1 o2 mp GC Ht es Hp1 E1 Hp2 E2]. eapply flags_lt; eauto. apply (d_lt D). Qed.
  Lemma es_ok a b x : In (a, b, x) es -> a < b /\ out a /\ out b /\ exists u v, u < n /\ In v (outn u) /\ cl u = a /\ cl v = b /\ x = mu u v.
  Proof.
    destruct HC as [t o1 o2 mp GC Ht es Hp1 E1 Hp2 E2]. intros H. destruct (es_In G (d_lt D) Ht _ _ _ H) as (A & _ & B).
    destruct (es_outside G (d_lt D) Ht _ _ _ H). auto.
  Qed.
  Lemma es_one a b x y : In (a, b, x) es -> In (a, b, y) es -> x = y.
  Proof. destruct HC as [t o1 o2 mp GC Ht es Hp1 E1 Hp2 E2]. eapply es_unique; eauto. apply (d_lt D). Qed.
  Lemma GC_ok : gn GC = F k /\ forall x y, x < F k -> (In y (csr_out GC x) <->
    exists a b z, (In (a, b, z) es \/ In (b, a, z) es) /\ x = F a /\ y = F b).
  Proof. destruct HC as [t o1 o2 mp GC Ht es Hp1 E1 Hp2 E2]. destruct (GC_facts Hsort G (d_lt D) Ht Hp2 E2) as (A & _ & B). auto. Qed.
  Lemma F_top c : out c -> F c < F k.
  Proof. destruct HC as [t o1 o2 mp GC Ht es Hp1 E1 Hp2 E2]. eapply flags_top; eauto. apply (d_lt D). Qed.

  Lemma walk_down u v : u < n -> v < n -> connected (pairs n outn) u v ->
    cl u = cl v \/ out (cl u) /\ out (cl v) /\ connected (pairs (gn GC) (csr_out GC)) (F (cl u)) (F (cl v)).
  Proof. intros Hu Hv. destruct HC as [t o1 o2 mp GC Ht es Hp1 E1 Hp2 E2]. apply (contract_connected Hsort G (d_lt D) Ht Hp2 E2 (d_conn D) Hu Hv). Qed.

  Lemma new_key_inj kk x y x' y' : x < y -> y < kk -> x' < y' -> y' < kk -> new_key kk x y = new_key kk x' y' -> x = x' /\ y = y'.
  Proof. unfold new_key. intros H1 H2 H3 H4 E. rewrite !Nat.min_l, !Nat.max_r in E by lia. assert (x = x') by nia. split; nia. Qed.
  Lemma new_key_sym kk x y : new_key kk x y = new_key kk y x.
  Proof. unfold new_key. now rewrite Nat.min_comm, Nat.max_comm. Qed.

  Section Renamed.
    Variable t2 : table pair.
    Hypothesis Ht2 : renamed hash k t es t2.
    Lemma mapping_entry a b z : In (a, b, z) es -> find hash no_edge t2 (new_key (F k) (F a) (F b)) (length t2) no_edge = Some z.
    Proof.
      intros Hz. destruct Ht2 as [sched s Hfin]. set (m2 := table_for (length t)) in *.
      assert (Hm : 0 < m2) by (pose proof (table_for_ge (length t)); unfold m2; lia).
      assert (Hfit : distinct (keys_of (new_table no_edge m2) ++ map fst (rename_calls k es)) <= m2).
      { rewrite new_keys. simpl. eapply (@finished_fits pair hash no_edge (fun _ v => v) None m2 Hm _ (new_table no_edge m2) sched); auto. apply repeat_length. }
      assert (Hr0 : reached hash no_edge (fun _ v => v) None m2 (new_table no_edge m2)) by constructor.
      assert (Hr : reached hash no_edge (fun _ v => v) None m2 (tab s)) by (apply reached_phase; auto).
      destruct (C28_insert (rename_calls k es) sched Hm Hr0 Hfit) as [_ H]. fold s in H. destruct (H Hfin) as (_ & Hk & _ & Hnew).
      set (key := new_key (F k) (F a) (F b)).
      assert (Hin : In key (map fst (rename_calls k es))).
      { unfold rename_calls. rewrite map_map. apply in_map_iff. exists (a, b, z). auto. }
      destruct (Hnew key) as (i & v & Hi & _ & Hl & _); auto; [now rewrite new_keys|].
      assert (v = z).
      { apply nth_error_In in Hi. unfold rename_calls in Hi. apply in_map_iff in Hi as ([[a' b'] z'] & E & Hz'). simpl in E. injection E as E <-.
        destruct (es_ok _ _ _ Hz) as (A1 & A2 & A3 & _), (es_ok _ _ _ Hz') as (B1 & B2 & B3 & _).
        apply new_key_inj in E as [E1 E2]; try (now apply F_top); try (now apply F_lt).
        apply F_inj in E1, E2; auto. subst a' b'. eapply es_one; eauto. }
      subst v.
      assert (Hlen : length (tab s) = m2).
      { destruct (@FI_exec pair no_edge (fun _ v => v) None m2 Hm (rename_calls k es) sched _
          (@FI_start pair hash no_edge m2 Hm (rename_calls k es) (new_table no_edge m2) (repeat_length _ _))) as (A & _). exact A. }
      destruct (@C28_find pair hash no_edge (fun _ v => v) None m2 (tab s) key m2 no_edge Hm Hr) as [E _]; auto.
      { right. apply Hk. auto. }
      rewrite Hlen, E, Hl. reflexivity.
    Qed.
    Definition lifts (e e' : pair) : Prop :=
      let (x, y) := e in let (u, v) := e' in
      u < n /\ In v (outn u) /\ out (cl u) /\ out (cl v) /\ (F (cl u) = x /\ F (cl v) = y \/ F (cl u) = y /\ F (cl v) = x).
    Lemma mapping_found x y : x < gn GC -> In y (csr_out GC x) -> exists u v, lifts (x, y) (u, v) /\
      find hash no_edge t2 (new_key (F k) x y) (length t2) no_edge = Some (mu u v).
    Proof.
      destruct GC_ok as [Hn HG]. rewrite Hn. intros Hx Hy. apply HG in Hy as (a & b & z & Hz & -> & ->); auto.
      destruct Hz as [Hz|Hz]; destruct (es_ok _ _ _ Hz) as (_ & O1 & O2 & u & v & Hu & Hv & <- & <- & ->); exists u, v.
      - split; [repeat split; auto|]. now apply mapping_entry.
      - split; [repeat split; auto|]. rewrite new_key_sym. now apply mapping_entry.
    Qed.
    Lemma lift_all T' : incl T' (pairs (gn GC) (csr_out GC)) -> exists T,
      map_edges (new_edge_mapping hash (F k) t2) T' = map_edges mu T /\ Forall2 lifts T' T.
    Proof.
      induction T' as [|[x y] T' IH]; intros Hi; [exists []; split; constructor|].
      destruct IH as (T & E & HT); [intros e He; apply Hi; now right|].
      destruct (@mapping_found x y) as (u & v & HL & Ef).
      { assert (X : In (x, y) (pairs (gn GC) (csr_out GC))) by (apply Hi; now left). apply In_pairs in X. tauto. }
      { assert (X : In (x, y) (pairs (gn GC) (csr_out GC))) by (apply Hi; now left). apply In_pairs in X. tauto. }
      exists ((u, v) :: T). split; [|constructor; auto]. unfold map_edges in *. simpl. f_equal; auto.
      unfold new_edge_mapping. now rewrite Ef.
    Qed.
  End Renamed.

  Notation T0 := (tree_edges n par).
  (* contracting the clusters maps a walk in T0 and lifted edges to a walk in the contracted edges *)
  Lemma contract_walk T' T u v : Forall2 lifts T' T -> connected (T0 ++ T) u v -> u < n ->
    v < n /\ (cl u = cl v \/ out (cl u) /\ out (cl v) /\ connected T' (F (cl u)) (F (cl v))).
  Proof.
    intros HT. assert (X : forall u v, connected (T0 ++ T) u v -> (u < n <-> v < n) /\ (u < n ->
       (cl u = cl v \/ out (cl u) /\ out (cl v) /\ connected T' (F (cl u)) (F (cl v))))).
    { clear u v. intros u v H. induction H as [u v H|u|u v H [I1 I2]|u w v H1 [I1 I2] H2 [J1 J2]].
      - apply in_app_or in H as [H|H].
        + pose proof (tree_In D u v) as X. apply X in H as X'. destruct (tree_edge G D _ _ H) as (A & B & C). split; [tauto|]. intros Hu.
          left. apply (d_same D); auto. tauto.
        + apply (In_nth_error) in H as [i Hi].
          assert (Y : exists e, nth_error T' i = Some e /\ lifts e (u, v)).
          { clear - HT Hi. revert i Hi. induction HT as [|e e' T' T He HT IH]; intros [|i] Hi; simpl in *; try easy; [injection Hi as ->; eauto|eauto]. }
          destruct Y as ([x y] & Hx & Hu & Hv & O1 & O2 & E). apply nth_error_In in Hx. destruct (@G _ _ Hu Hv) as [Hv' _]. split; [tauto|]. intros _.
          right. split; auto. split; auto. destruct E as [[-> ->]|[-> ->]]; [now apply rst_step|now apply rst_sym, rst_step].
      - split; [tauto|auto].
      - split; [tauto|]. intros Hv. apply I1 in Hv as Hu. destruct (I2 Hu) as [E|(A & B & C)]; auto. right. split; auto. split; auto. now apply rst_sym.
      - split; [tauto|]. intros Hu. apply I1 in Hu as Hw. destruct (I2 Hu) as [E1|(A1 & B1 & C1)], (J2 Hw) as [E2|(A2 & B2 & C2)].
        + left. congruence.
        + right. rewrite E1. auto.
        + right. rewrite <- E2. auto.
        + right. split; auto. split; auto. eapply rst_trans; eauto. }
    intros H Hu. apply X in H as [A B]. split; [tauto|auto].
  Qed.
  Lemma lift_forest T' T : Forall2 lifts T' T -> forest' T' -> forest' (T0 ++ T).
  Proof.
    revert T. induction T' as [|e T' IH] using rev_ind; intros T HT HF.
    - inversion HT; subst. rewrite app_nil_r. eapply tree_forest; eauto.
    - apply Forall2_app_inv_l in HT as (Ta & Tb & HT & He & ->). inversion He as [|e' [u v] l1 l2 Hl Hn]; subst. inversion Hn; subst.
      rewrite app_assoc. apply forest'_snoc; [apply IH; auto; eapply forest'_prefix; eauto|]. intros Hc.
      destruct e as [x y]. destruct Hl as (Hu & Hv & O1 & O2 & E).
      apply (contract_walk HT) in Hc as [_ Hc]; auto.
      apply (HF T' (x, y) []); [reflexivity|]. rewrite app_nil_r. simpl.
      assert (X : connected T' (F (cl u)) (F (cl v))) by (destruct Hc as [->|(_ & _ & Hc)]; auto; apply rst_refl).
      destruct E as [[<- <-]|[<- <-]]; auto. now apply rst_sym.
  Qed.
  Lemma lift_spans T' T : Forall2 lifts T' T -> (forall x y, connected (pairs (gn GC) (csr_out GC)) x y -> connected T' x y) ->
    forall u v, connected (pairs n outn) u v -> u < n -> v < n -> connected (T0 ++ T) u v.
  Proof.
    intros HT Hs u v Huv Hu Hv.
    assert (Hcl : forall u v, u < n -> v < n -> cl u = cl v -> connected (T0 ++ T) u v).
    { intros a b Ha Hb E. eapply conn_incl; [|apply (tree_connected G D Ha Hb); exact E]. intros e He. apply in_or_app. auto. }
    assert (HW : cl u = cl v \/ out (cl u) /\ out (cl v) /\ connected (pairs (gn GC) (csr_out GC)) (F (cl u)) (F (cl v))).
    { now apply walk_down. }
    destruct HW as [E|(O1 & O2 & HW)]; auto. apply Hs in HW.
    assert (X : forall x y, connected T' x y -> x = y \/
      (exists a, a < n /\ out (cl a) /\ F (cl a) = x) /\ (exists b, b < n /\ out (cl b) /\ F (cl b) = y) /\
      forall a b, a < n -> b < n -> out (cl a) -> out (cl b) -> F (cl a) = x -> F (cl b) = y -> connected (T0 ++ T) a b).
    { intros x y H. induction H as [x y H|x|x y H IH|x w y H1 IH1 H2 IH2].
      - right. apply In_nth_error in H as [i Hi].
        assert (Y : exists e, In e T /\ lifts (x, y) e).
        { clear - HT Hi. revert i Hi. induction HT as [|e e' T' T He HT IH]; intros [|i] Hi; simpl in *; try easy; [injection Hi as ->; eauto|].
          destruct (IH i Hi) as (e2 & A & B). eauto. }
        destruct Y as ([a b] & Hin & Ha & Hb & Oa & Ob & E). destruct (@G _ _ Ha Hb) as [Hb' _].
        assert (Hab : connected (T0 ++ T) a b) by (apply rst_step, in_or_app; auto).
        destruct E as [[<- <-]|[<- <-]].
        + split; [eauto|]. split; [eauto|]. intros a' b' Ha' Hb'' Oa' Ob' E1 E2. apply F_inj in E1, E2; auto.
          eapply rst_trans; [apply Hcl|eapply rst_trans; [exact Hab|apply Hcl]]; auto.
        + split; [eauto|]. split; [eauto|]. intros a' b' Ha' Hb'' Oa' Ob' E1 E2. apply F_inj in E1, E2; auto.
          eapply rst_trans; [apply Hcl|eapply rst_trans; [apply rst_sym, Hab|apply Hcl]]; auto.
      - auto.
      - destruct IH as [->|(A & B & C)]; auto. right. split; auto. split; auto. intros a b Ha Hb Oa Ob E1 E2. apply rst_sym. apply C; auto.
      - destruct IH1 as [->|(A1 & B1 & C1)]; auto. destruct IH2 as [<-|(A2 & B2 & C2)]; [right; auto|].
        right. split; auto. split; auto. intros a b Ha Hb Oa Ob E1 E2. destruct B1 as (w' & Hw & Ow & Ew). eapply rst_trans; [apply (C1 a w')|apply (C2 w' b)]; auto. }
    apply X in HW as [E|(_ & _ & Y)]; auto. apply Hcl; auto. now apply F_inj.
  Qed.
End Merge.

Definition spans (n : nat) (outn : nat -> list nat) (T : list pair) : Prop :=
  incl T (pairs n outn) /\ forest' T /\ forall u v, connected (pairs n outn) u v -> connected T u v.
Lemma conn_range n outn u v : undirected n outn -> connected (pairs n outn) u v -> u = v \/ u < n /\ v < n.
Proof.
  intros G H. induction H as [u v H| | |]; auto; try (intuition congruence).
  apply In_pairs in H as [Hu Hv]. destruct (@G _ _ Hu Hv). auto.
Qed.
Lemma forest'_irrefl T u : forest' T -> ~ In (u, u) T.
Proof. intros H Hin. apply in_split in Hin as (l1 & l2 & E). apply (H l1 (u, u) l2 E). apply rst_refl. Qed.

Section SFOk.
  Variable hash : nat -> nat.
  Variable sort : list (edge unit) -> list (edge unit).
  Hypothesis Hsort : sorts sort.
  Variable incs : nat -> list nat.
  Hypothesis Hincs : forall n, covers n (incs n).
  Lemma trees_incl n outn clusters k clu par : undirected n outn -> decomposed n outn clusters k clu par -> incl (tree_edges n par) (pairs n outn).
  Proof. intros G D [u v] H. apply (tree_edge G D) in H. apply In_pairs. tauto. Qed.
  Lemma sf_ok permute mu n outn m res : sf_impl hash sort incs permute mu n outn m res -> undirected n outn ->
    exists T q, res = repeat (0, 0) q ++ map_edges mu T /\ spans n outn T /\ q <= length T /\
      ((exists u v, u < n /\ In v (outn u) /\ u <> v) -> 0 < q).
  Proof.
    intros H. induction H as [permute mu n outn m clusters k par t es mapping GC t2 HD HC HR H0 edges|
        permute mu n outn m clusters k par t es mapping GC t2 rec HD HC HR H0 HI IH]; intros G;
      destruct (decomposes_ok Hincs G HD) as (clu & D & _).
    - exists (tree_edges n par), (length edges). split; [reflexivity|].
      assert (Hno : forall c, ~ outside n outn clusters c).
      { destruct HC as [t o1 o2 mp GC Ht es Hp1 E1 Hp2 E2]. eapply GC_empty; eauto. apply (d_lt D). }
      split; [|split].
      + split; [eapply trees_incl; eauto|]. split; [eapply tree_forest; eauto|].
        intros u v Huv. destruct (conn_range G Huv) as [->|[Hu Hv]]; [apply rst_refl|].
        apply (tree_connected G D Hu Hv). destruct (walk_down Hsort G D HC Hu Hv Huv) as [E|[E _]]; auto. exfalso. eapply Hno; eauto.
      + unfold edges, map_edges. now rewrite map_length.
      + intros (u & v & Hu & Hv & Hne). destruct (@G _ _ Hu Hv) as [Hv' _]. unfold edges, map_edges. rewrite map_length.
        assert (Huv : connected (pairs n outn) u v) by (apply rst_step, In_pairs; auto).
        assert (X : connected (tree_edges n par) u v).
        { apply (tree_connected G D Hu Hv'). destruct (walk_down Hsort G D HC Hu Hv' Huv) as [E|[E _]]; auto. exfalso. eapply Hno; eauto. }
        destruct (tree_edges n par); [apply conn_nil in X; contradiction|simpl; lia].
    - assert (HU : undirected (gn GC) (csr_out GC)).
      { destruct HC as [t o1 o2 mp GC Ht es Hp1 E1 Hp2 E2]. eapply GC_undirected; eauto. apply (d_lt D). }
      destruct (IH HU) as (T' & q & -> & (Hi & Hf & Hs) & Hq & Hpos).
      destruct (lift_all Hsort G D HC HR Hi) as (T & E & HT).
      exists (T ++ tree_edges n par), q. split; [|split; [|split]].
      + rewrite E. unfold map_edges. now rewrite map_app, app_assoc.
      + assert (HP : Permutation (tree_edges n par ++ T) (T ++ tree_edges n par)) by apply Permutation_app_comm.
        split; [|split].
        * apply incl_app; [|eapply trees_incl; eauto]. intros [u v] He. clear - HT He. induction HT as [|[x y] [u' v'] T' T Hl HT IH]; [easy|].
          destruct He as [He|He]; auto. injection He as -> ->. destruct Hl as (A & B & _). now apply In_pairs.
        * eapply forest'_perm; [exact HP|]. eapply lift_forest; eauto.
        * intros u v Huv. destruct (conn_range G Huv) as [->|[Hu Hv]]; [apply rst_refl|].
          eapply conn_incl; [|eapply (lift_spans Hsort G D HC HT Hs Huv Hu Hv)]. intros e He. eapply Permutation_in; eauto.
      + rewrite app_length. assert (length T' = length T) by (clear - HT; induction HT; simpl; auto). lia.
      + intros _. apply Hpos.
        destruct HC as [t o1 o2 mp GC Ht es Hp1 E1 Hp2 E2]. destruct (GC_nonempty _ G (d_lt D) Ht Hp2 E2 H0) as [c Hc].
        destruct (GC_facts Hsort G (d_lt D) Ht Hp2 E2) as (Hgn & _ & _).
        pose proof (flags_top G (d_lt D) Ht Hc) as Hlt. rewrite <- Hgn in Hlt.
        destruct (GC_neighbour Hsort G (d_lt D) Ht Hp2 E2 Hlt) as (y & Hy & Hne). exists (flags (edges_of k t) c), y. auto.
  Qed.

  (* it can return on small graphs *)
  Hypothesis Hfirst : forall n, nth 0 (incs n) 0 = 1.
  Lemma rename_exists k t es : length es <= length t -> exists t2, renamed hash k t es t2.
  Proof.
    intros Hl. set (m2 := table_for (length t)).
    assert (Hm : length t < m2) by apply table_for_ge.
    destruct (@fetch_exists pair no_edge hash m2 (rename_calls k es)) as [sched Hf]; [lia| |].
    - unfold distinct. apply Nat.le_trans with (length (map fst (rename_calls k es))); [apply NoDup_incl_length; [apply NoDup_nodup|intros x; apply nodup_In]|].
      unfold rename_calls. rewrite !map_length. lia.
    - eexists. econstructor. exact Hf.
  Qed.
  Lemma es_length n outn mu clusters k t es mapping GC : contracts no_edge hash sort n outn mu clusters k t es mapping GC -> length es <= length t.
  Proof.
    intros [t' o1 o2 mp GC' Ht es' _ _ _ _]. unfold es', edges_of. rewrite map_length. unfold entries.
    clear. induction t' as [|[[x|] v] t' IH]; simpl; auto; lia.
  Qed.
  Lemma contracts_undirected' mu n outn clusters k clu par t es mapping GC : undirected n outn ->
    decomposed n outn clusters k clu par -> contracts no_edge hash sort n outn mu clusters k t es mapping GC ->
    undirected (gn GC) (csr_out GC) /\ (forall x, x < gn GC -> exists y, In y (csr_out GC x) /\ y <> x) /\ gn GC <= k /\ (gm GC <> 0 -> 2 <= gn GC).
  Proof.
    intros G HD HC. destruct HC as [t o1 o2 mp GC Ht es Hp1 E1 Hp2 E2]. pose proof (d_lt HD) as Hlt.
    destruct (GC_facts Hsort G Hlt Ht Hp2 E2) as (Hgn & _ & _).
    pose proof (GC_undirected Hsort G Hlt Ht Hp2 E2) as GU.
    pose proof (GC_neighbour Hsort G Hlt Ht Hp2 E2) as GN.
    split; auto. split; auto. split; [rewrite Hgn; apply flags_le|].
    intros H0. destruct (GC_nonempty _ G Hlt Ht Hp2 E2 H0) as [c Hc].
    assert (A : 0 < gn GC) by (rewrite Hgn; pose proof (flags_top G Hlt Ht Hc); lia).
    destruct (GN 0 A) as (y & Hy & Hne). apply (@GU _ _ A) in Hy. lia.
  Qed.
  Lemma sf_one permute mu n outn m : n <= 64 -> undirected n outn ->
    (forall mu' n' outn' m', n' <= 64 -> undirected n' outn' -> (forall x, x < n' -> exists y, In y (outn' x) /\ y <> x) -> 2 <= n' ->
       n' < n \/ n' <= n /\ ~ (2 <= n /\ forall x, x < n -> exists y, In y (outn x) /\ y <> x) ->
       exists res, sf_impl hash sort incs true mu' n' outn' m' res) ->
    exists res, sf_impl hash sort incs permute mu n outn m res.
  Proof.
    intros Hn G IH.
    destruct (decomposes_exist _ Hincs G m permute) as (clusters & k & par & HD).
    destruct (decomposes_ok Hincs G HD) as (clu & D & Hs). pose proof (d_le D) as Hk.
    destruct (@contracts_exist pair no_edge hash sort Hsort n outn G mu clusters k (d_lt D)) as (t & es & mapping & GC & HC).
    { right. rewrite table_small. etransitivity; [apply (keys_small mu clusters (d_lt D) G)|]. apply Nat.mul_le_mono; lia. }
    destruct (rename_exists k t es (es_length HC)) as [t2 HR].
    destruct (Nat.eq_dec (gm GC) 0) as [E|E]; [eexists; eapply sf_last; eauto|].
    destruct (contracts_undirected' G D HC) as (GU & GN & Hgk & H2).
    destruct (IH (new_edge_mapping hash (flags es k) t2) (gn GC) (csr_out GC) (gm GC)) as [nl Hnl]; auto; [lia|..].
    - destruct (Nat.lt_ge_cases (gn GC) n) as [X|X]; auto. right. split; [lia|]. intros [A B]. specialize (Hs (Hfirst n) A B). lia.
    - eexists. eapply sf_more; eauto.
  Qed.
  Lemma sf_exists' : forall n, n <= 64 -> forall permute mu outn m, undirected n outn -> (forall x, x < n -> exists y, In y (outn x) /\ y <> x) -> 2 <= n ->
    exists res, sf_impl hash sort incs permute mu n outn m res.
  Proof.
    induction n as [n IH] using lt_wf_ind. intros Hn permute mu outn m G GN H2.
    apply sf_one; auto. intros mu' n' outn' m' A B C D [E|[_ E]]; [apply IH; auto|]. exfalso. auto.
  Qed.
  Lemma sf_exists n : n <= 64 -> forall permute mu outn m, undirected n outn -> exists res, sf_impl hash sort incs permute mu n outn m res.
  Proof. intros Hn permute mu outn m G. apply sf_one; auto. intros mu' n' outn' m' A B C D _. apply sf_exists'; auto. Qed.
End SFOk.
