(* C67: the sources and the breadth-first forest. *)
From Coq Require Import ZArith.
From Verif Require Import Base ListUtil VSModel VSSpec EMModel EMSpec FAModel FAProofs UFSpec UFModel UFSys UFProps FRProofs BIModel BITree.
Unset Strict Implicit.
Local Open Scope nat_scope.

(* -- the sources: the least vertex of every label ------------------------------------------ *)
Section Sources.
  Variable n : nat.
  Variable L : nat -> nat.
  Hypothesis HL : forall i, i < n -> L i < n.

  Definition flags_of (D : list nat) (fl : list (option nat)) : Prop :=
    length fl = n + 1 /\ forall l, l < n + 1 ->
      match nth l fl None with
      | None => forall i, In i D -> L i <> l
      | Some x => In x D /\ L x = l /\ forall i, In i D -> L i = l -> x <= i
      end.
  Lemma flags_step D fl i : i < n -> flags_of D fl -> flags_of (i :: D) (min_flag L fl i).
  Proof.
    intros Hi [Hl H]. specialize (HL Hi) as HLi. unfold min_flag. split; [now rewrite length_lset|].
    intros l Hll. destruct (Nat.eq_dec l (L i)) as [->|Hne].
    - rewrite nth_lset_same by lia. specialize (H (L i) Hll). destruct (nth (L i) fl None) as [x|].
      + destruct H as (H1 & H2 & H3). split; [|split].
        * destruct (Nat.min_dec x i) as [->| ->]; [now right|now left].
        * destruct (Nat.min_dec x i) as [->| ->]; auto.
        * intros j [<-|Hj] Ej; [lia|]. specialize (H3 j Hj Ej). lia.
      + split; [now left|]. split; auto. intros j [<-|Hj] Ej; auto. exfalso. now apply (H j).
    - rewrite nth_lset_other by auto. specialize (H l Hll). destruct (nth l fl None) as [x|].
      + destruct H as (H1 & H2 & H3). split; [now right|]. split; auto. intros j [<-|Hj] Ej; auto. congruence.
      + intros j [<-|Hj]; auto.
  Qed.
  Lemma flags_fold : forall l D fl, (forall i, In i l -> i < n) -> flags_of D fl -> flags_of (rev l ++ D) (fold_left (min_flag L) l fl).
  Proof.
    induction l as [|i l IH]; intros D fl Hl H; simpl; auto. rewrite <- app_assoc. simpl. apply IH.
    - intros j Hj. apply Hl. now right.
    - apply flags_step; auto. apply Hl. now left.
  Qed.
  Lemma pick_in (fl : list (option nat)) x : In x (flat_map (fun o => match o with Some x => [x] | None => [] end) fl) <-> exists l, l < length fl /\ nth l fl None = Some x.
  Proof.
    rewrite in_flat_map. split.
    - intros (o & Ho & Hx). destruct o as [y|]; [|destruct Hx]. destruct Hx as [->|[]].
      apply (In_nth _ _ None) in Ho as (l & Hl & E). eauto.
    - intros (l & Hl & E). exists (Some x). split; [rewrite <- E; now apply nth_In|now left].
  Qed.
  Lemma pick_nodup : forall (fl : list (option nat)) k,
    (forall l x, l < length fl -> nth l fl None = Some x -> L x = k + l) ->
    NoDup (flat_map (fun o => match o with Some x => [x] | None => [] end) fl).
  Proof.
    induction fl as [|o fl IH]; intros k H; simpl; [constructor|].
    assert (Hn : NoDup (flat_map (fun o => match o with Some x => [x] | None => [] end) fl)).
    { apply (IH (S k)). intros l x Hl E. rewrite (H (S l) x); simpl; auto; lia. }
    destruct o as [x|]; auto. simpl. constructor; auto. intros Hin. apply pick_in in Hin as (l & Hl & E).
    pose proof (H 0 x ltac:(simpl; lia) eq_refl). pose proof (H (S l) x ltac:(simpl; lia) E). lia.
  Qed.
  Lemma sources_ok order : Permutation order (seq 0 n) ->
    NoDup (cc_sources n L order) /\
    forall s, In s (cc_sources n L order) <-> s < n /\ forall j, j < n -> L j = L s -> s <= j.
  Proof.
    intros Hp. assert (Hord : forall i, In i order <-> i < n).
    { intros i. split; intros H.
      - apply (Permutation_in _ Hp), in_seq in H. lia.
      - apply (Permutation_in _ (Permutation_sym Hp)), in_seq. lia. }
    assert (HF : flags_of (rev order ++ []) (fold_left (min_flag L) order (repeat None (n + 1)))).
    { apply flags_fold; [intros i; apply Hord|]. split; [apply repeat_length|]. intros l Hl. rewrite nth_repeat. easy. }
    rewrite app_nil_r in HF. destruct HF as [Hl HF]. unfold cc_sources.
    set (fl := fold_left (min_flag L) order (repeat None (n + 1))) in *. split.
    - apply pick_nodup with 0. intros l x Hx E. rewrite Hl in Hx. specialize (HF l Hx). rewrite E in HF. tauto.
    - intros s. rewrite pick_in, Hl. split.
      + intros (l & Hll & E). specialize (HF l Hll). rewrite E in HF. destruct HF as (H1 & H2 & H3).
        apply in_rev, Hord in H1. split; auto. intros j Hj Ej. apply H3; [|congruence]. apply -> in_rev. now apply Hord.
      + intros [Hs Hmin]. specialize (HL Hs) as HLs. exists (L s). split; [lia|].
        specialize (HF (L s) ltac:(lia)). destruct (nth (L s) fl None) as [x|].
        * destruct HF as (H1 & H2 & H3). apply in_rev, Hord in H1. f_equal.
          assert (In s (rev order)) by (apply -> in_rev; now apply Hord).
          specialize (H3 s H eq_refl). specialize (Hmin x H1 H2). lia.
        * exfalso. apply (HF s); auto. apply -> in_rev. now apply Hord.
  Qed.
End Sources.

(* -- the search -------------------------------------------------------------------------- *)
Section Bfs.
  Variable n : nat.
  Variable outn : nat -> list nat.
  Hypothesis G : graph_ok n outn outn.
  Variable m : nat.
  Variable srcs : list nat.
  Hypothesis Hnd : NoDup srcs.
  Hypothesis Hlt : forall s, In s srcs -> s < n.

  Record MInv (k : nat) (p : pstate) (U : vset unit) (F : list nat) (dep : nat -> nat) : Prop := {
    m_built : built n U (plain F);
    m_F : forall v, In v F <-> p v <> None /\ dep v = k;
    m_par : forall v q, p v = Some q ->
        q = v /\ In v srcs /\ dep v = 0 \/ In v (outn q) /\ q <> v /\ p q <> None /\ dep v = S (dep q);
    m_vis : forall v, p v <> None -> v < n /\ dep v <= k;
    m_src : forall s, In s srcs -> p s = Some s;
    m_closed : forall u v, p u <> None -> dep u < k -> In v (outn u) -> p v <> None /\ dep v <= S (dep u) }.

  Lemma start_par : forall l p v, fold_left (fun p s => fset p s (Some s)) l p v = if in_dec Nat.eq_dec v l then Some v else p v.
  Proof.
    induction l as [|a l IH]; intros p v; simpl; auto. rewrite IH.
    destruct (in_dec Nat.eq_dec v l) as [I|I], (Nat.eq_dec a v) as [E|E]; auto.
    - subst. apply fset_same.
    - apply fset_other. auto.
  Qed.
  Lemma start_minv : MInv 0 (fold_left (fun p s => fset p s (Some s)) srcs (fun _ => None)) (vs_sparse n (plain srcs)) srcs (fun _ => 0).
  Proof.
    split.
    - split; [|now right; left]. split.
      + unfold plain. rewrite map_map. simpl. now rewrite map_id.
      + apply Forall_forall. intros [x u] Hx. unfold plain in Hx. apply in_map_iff in Hx as (y & E & Hy). injection E as <- _. simpl. auto.
    - intros v. rewrite start_par. destruct (in_dec Nat.eq_dec v srcs); intuition congruence.
    - intros v q. rewrite start_par. destruct (in_dec Nat.eq_dec v srcs); intros E; [|discriminate]. injection E as <-. auto.
    - intros v. rewrite start_par. destruct (in_dec Nat.eq_dec v srcs); intros E; [|congruence]. auto.
    - intros s Hs. rewrite start_par. destruct (in_dec Nat.eq_dec s srcs); auto. contradiction.
    - intros. lia.
  Qed.
  Lemma round_minv k p U F dep p' U' : MInv k p U F dep ->
    edgeMap_visit n outn outn m None multi_flags U p p' U' ->
    exists F' dep', MInv (S k) p' U' F' dep' /\ forall v, p v <> None -> p' v <> None /\ dep' v = dep v.
  Proof.
    intros [Hb HF Hp Hv Hs Hc] Hev. destruct (visit_advanced F G Hb Hev) as ((l & Hl1 & Hl2 & Hb' & _) & HA & HN).
    set (dep' := fun v => match p v with Some _ => dep v | None => S k end).
    assert (Hold : forall v, p v <> None -> p' v = p v /\ dep' v = dep v).
    { intros v Hpv. split; [apply HN; intros [E _]; contradiction|]. unfold dep'. destruct (p v); congruence. }
    assert (Hnew : forall v, p v = None -> p' v <> None -> next_vertex outn p F v).
    { intros v E1 E2. destruct (in_dec Nat.eq_dec v l) as [I|I]; [now apply Hl2|].
      exfalso. apply E2. rewrite HN; auto. now rewrite <- Hl2. }
    exists l, dep'. split; [|intros v Hpv; destruct (Hold v Hpv) as [-> ->]; auto]. split; auto.
    - intros v. rewrite Hl2. split.
      + intros Hn. split; [destruct (HA v Hn) as (s & _ & _ & ->); congruence|]. destruct Hn as [E _]. unfold dep'. now rewrite E.
      + intros [H1 H2]. destruct (p v) as [q|] eqn:E; [|now apply Hnew].
        assert (Hpv : p v <> None) by congruence. destruct (Hold v Hpv) as [_ E2]. apply Hv in Hpv as [_ Hle]. lia.
    - intros v q E. destruct (p v) as [q0|] eqn:Epv.
      + assert (Hpv : p v <> None) by congruence. destruct (Hold v Hpv) as [E1 E2]. rewrite E2.
        assert (E3 : p v = Some q) by congruence. destruct (Hp v q E3) as [?|(A1 & A2 & A3 & A4)]; auto.
        right. destruct (Hold q A3) as [B1 B2]. rewrite B1, B2. auto.
      + right. assert (Hn : next_vertex outn p F v) by (apply Hnew; auto; congruence).
        destruct (HA v Hn) as (s & Hs1 & Hs2 & E3). assert (q = s) by congruence. subst s.
        apply HF in Hs1 as [Hq Hdq]. destruct (Hold q Hq) as [B1 B2]. rewrite B1, B2. split; auto.
        split; [congruence|]. split; auto. unfold dep'. rewrite Epv. congruence.
    - intros v Hpv. destruct (p v) as [q0|] eqn:Epv.
      + assert (X : p v <> None) by congruence. destruct (Hold v X) as [_ E2]. rewrite E2. apply Hv in X as [? ?]. split; auto.
      + assert (Hn : next_vertex outn p F v) by now apply Hnew. unfold dep'. rewrite Epv. split; auto.
        destruct Hn as (_ & s & Hs1 & Hs2). apply HF in Hs1 as [Hs1 _]. apply Hv in Hs1 as [Hs1 _]. eapply g_out; eauto.
    - intros s Hin. rewrite <- (Hs s Hin). apply Hold. rewrite (Hs s Hin). congruence.
    - intros u v Hpu Hdu Hin. destruct (p u) as [q0|] eqn:Epu.
      + assert (X : p u <> None) by congruence. destruct (Hold u X) as [_ E2]. rewrite E2 in *.
        destruct (Nat.eq_dec (dep u) k) as [Ek|Ek].
        * destruct (p v) as [q1|] eqn:Epv.
          -- assert (Y : p v <> None) by congruence. destruct (Hold v Y) as [Z1 Z2]. rewrite Z1, Z2. split; auto.
             apply Hv in Y. lia.
          -- assert (Hn : next_vertex outn p F v). { split; auto. exists u. split; auto. apply HF. auto. }
             destruct (HA v Hn) as (s & _ & _ & ->). split; [congruence|]. unfold dep'. rewrite Epv. lia.
        * destruct (Hc u v X ltac:(lia) Hin) as [Y1 Y2]. destruct (Hold v Y1) as [Z1 Z2]. rewrite Z1, Z2. auto.
      + exfalso. unfold dep' in Hdu. rewrite Epu in Hdu. lia.
  Qed.
  Lemma multi_inv k p U : multi_loop n outn m srcs k p U -> exists F dep, MInv k p U F dep.
  Proof.
    intros H. induction H as [|k p U p' U' H (F & dep & HI) Hsz Hev].
    - do 2 eexists. apply start_minv.
    - destruct (round_minv HI Hev) as (F' & dep' & HI' & _). eauto.
  Qed.

  (* a breadth-first forest of the whole graph, if there is a source in every component *)
  Hypothesis Hall : forall v, v < n -> exists s, In s srcs /\ connected (all_arcs n outn) s v.
  Hypothesis Hrange : forall u v, u < n -> In v (outn u) -> v < n.
  Hypothesis Hsym : forall u v, u < n -> In v (outn u) -> In u (outn v).
  Lemma arcs_in u v : In (u, v) (all_arcs n outn) <-> u < n /\ In v (outn u).
  Proof.
    unfold all_arcs. rewrite in_flat_map. split.
    - intros (a & Ha & H). apply in_map_iff in H as (b & E & Hb). injection E as -> ->. apply in_seq in Ha. split; auto. lia.
    - intros [Hu Hv]. exists u. split; [apply in_seq; lia|]. apply in_map_iff. eauto.
  Qed.
  Lemma multi_result p : multi_bfs n outn m srcs p -> exists dep,
    (forall v, v < n -> exists q, p v = Some q /\ q < n /\
       (q = v /\ In v srcs /\ dep v = 0 \/ q <> v /\ ~ In v srcs /\ dep v = S (dep q) /\ In v (outn q))) /\
    (forall u v, u < n -> In v (outn u) -> dep v <= S (dep u)).
  Proof.
    intros (k & U & H & Hsz). destruct (multi_inv H) as (F & dep & [Hb HF Hp Hv Hs Hc]).
    rewrite (built_size F Hb) in Hsz. destruct F; [|discriminate].
    assert (Hcl : forall u v, p u <> None -> In v (outn u) -> p v <> None /\ dep v <= S (dep u)).
    { intros u v Hu Hin. apply Hc; auto. destruct (Hv u Hu) as [_ Hle]. destruct (Nat.eq_dec (dep u) k) as [E|E]; [|lia].
      exfalso. assert (X : In u []) by now apply HF. destruct X. }
    assert (Hvis : forall v, v < n -> p v <> None).
    { intros v Hvn. destruct (Hall Hvn) as (s & Hin & C).
      assert (X : p s <> None <-> p v <> None); [|apply X; rewrite (Hs s Hin); congruence].
      apply (@conn_set (all_arcs n outn) (fun z => p z <> None)); auto.
      intros x y Hxy. apply arcs_in in Hxy as [Hx Hy]. split; intros Z.
      - now apply (Hcl x y).
      - apply (Hcl y x); auto. }
    exists dep. split.
    - intros v Hvn. destruct (p v) as [q|] eqn:E; [|exfalso; now apply (Hvis v)]. exists q. split; auto.
      destruct (Hp v q E) as [(A1 & A2 & A3)|(A1 & A2 & A3 & A4)].
      + subst. auto.
      + split; [now apply Hv|]. right. repeat split; auto. intros X. apply Hs in X. congruence.
    - intros u v Hu Hin. apply Hcl; auto.
  Qed.

  Lemma multi_bound k p U : multi_loop n outn m srcs k p U -> k <= n.
  Proof.
    intros H. assert (X : exists F dep l, MInv k p U F dep /\ NoDup l /\ length l = k /\ forall v, In v l -> p v <> None /\ dep v < k).
    { induction H as [|k p U p' U' H (F & dep & l & HI & Hn & Hlen & Hl) Hsz Hev].
      - exists srcs, (fun _ => 0), []. split; [apply start_minv|]. split; [constructor|]. split; auto. easy.
      - rewrite (built_size F (m_built HI)) in Hsz. destruct F as [|f F]; [simpl in Hsz; congruence|].
        assert (Hf : In f (f :: F)) by now left. apply (m_F HI) in Hf as [Hf1 Hf2].
        destruct (round_minv HI Hev) as (F' & dep' & HI' & Hold).
        exists F', dep', (f :: l). split; auto. split; [|split; [simpl; auto|]].
        + constructor; auto. intros X. apply Hl in X. lia.
        + intros v [<-|Hv].
          * destruct (Hold f Hf1) as [A B]. split; auto. lia.
          * destruct (Hl v Hv) as [A B]. destruct (Hold v A) as [A' B']. split; auto. lia. }
    destruct X as (F & dep & l & HI & Hn & Hlen & Hl). rewrite <- Hlen, <- (seq_length n 0).
    apply NoDup_incl_length; auto. intros v Hv. apply in_seq. apply Hl in Hv as [Hv _]. apply (m_vis HI) in Hv. lia.
  Qed.
End Bfs.
