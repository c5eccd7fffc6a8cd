(* C71: the searches compute the clusters, given the answers of the similarity lookups. *)
From Verif Require Import Base ListUtil ISSpec ISProofs SISpec SIModel SIProofs SMFinal HTModel NSSpec NSModel.
From Coq Require Import ZArith Relation_Operators Operators_Properties Sorted.
Local Open Scope nat_scope.
Unset Strict Implicit.

Section Search.
  Variable dedup : list nat -> list nat.
  Hypothesis Hdedup : forall l, increasing (dedup l) /\ forall x, In x (dedup l) <-> In x l.
  Variable pull : nat -> nat -> bool.
  Variable n : nat.
  Variable adj : nat -> list nat.
  Variable sim : nat -> nat -> Z.
  Variables (mu : nat) (eps : Z).
  Hypothesis HA : simple_adj n adj.
  Hypothesis Hsim : forall u v, u < n -> In v (adj u) -> sim u v = sim v u.
  Variable similar_b : nat -> nat -> option bool.
  Hypothesis Hb : forall u v, u < n -> In v (adj u) -> similar_b u v = Some (eps <=? sim u v)%Z.
  Notation core := (core n adj sim mu eps).
  Notation linked := (linked n adj sim mu eps).
  Notation similar := (similar n adj sim eps).
  Notation cluster_of := (cluster_of n adj sim mu eps).

  Definition coreb (u : nat) : bool := mu <=? length (filter (fun v => (eps <=? sim u v)%Z) (adj u)) + 1.
  Lemma coreb_core u : u < n -> (coreb u = true <-> core u).
  Proof. intros Hu. unfold coreb, SISpec.core. rewrite Nat.leb_le. split; [intros H; split; [auto|lia]|intros [_ H]; lia]. Qed.
  Lemma core_bitmap_ok : core_bitmap n adj similar_b mu = Some (map coreb (seq 0 n)).
  Proof.
    unfold core_bitmap. apply all_some_map. intros u Hu. apply in_seq in Hu.
    rewrite (@all_some_map _ _ _ (fun v => (eps <=? sim u v)%Z)) by (intros; apply Hb; auto; lia). cbn [option_map]. unfold coreb. do 2 f_equal. f_equal.
    clear. induction (adj u) as [|v l IH]; cbn; auto. destruct (eps <=? sim u v)%Z; cbn; lia.
  Qed.
  Notation cores := (map coreb (seq 0 n)).
  Lemma nth_cores u : nth u cores false = true <-> core u.
  Proof.
    destruct (Nat.lt_ge_cases u n) as [Hu|Hu].
    - rewrite nth_map_seq by auto. now apply coreb_core.
    - rewrite nth_overflow by (rewrite map_length, seq_length; lia). split; [discriminate|]. intros [H _]. lia.
  Qed.
  Lemma similar_sym u v : similar u v -> similar v u.
  Proof. intros (H1 & H2 & H3). destruct (sa_range HA H1 H2). split; auto. split; [now apply (sa_sym HA)|]. now rewrite <- Hsim. Qed.
  Lemma linked_sym u v : linked u v -> linked v u.
  Proof. apply rst_sym. Qed.
  Lemma linked_trans u v w : linked u v -> linked v w -> linked u w.
  Proof. apply rst_trans. Qed.
  Lemma linked_step u v : core u -> core v -> similar u v -> linked u v.
  Proof. intros. now apply rst_step. Qed.
  Lemma linked_core u v : linked u v -> (core u <-> core v).
  Proof. intros H. induction H; tauto. Qed.
  (* a set closed under similar cores *)
  Lemma linked_closed (P : nat -> Prop) : (forall u v, P u -> core u -> core v -> similar u v -> P v) -> forall u v, linked u v -> (P u <-> P v).
  Proof.
    intros H u v L. induction L as [x y (C1 & C2 & S)| | |]; try tauto.
    split; intros Q; [eapply H; eauto|]. apply (H y x); auto. now apply similar_sym.
  Qed.

  (* -- members of frontiers -- *)
  Lemma In_vertex_filter p f v : In v (members (vertex_filter p f)) <-> In v (members f) /\ p v = true.
  Proof.
    destruct f as [l|d]; cbn [vertex_filter members]; [apply filter_In|]. rewrite !filter_In, map_length, seq_length, in_seq. split.
    - intros [H1 H2]. rewrite nth_map_seq in H2 by lia. apply andb_true_iff in H2. tauto.
    - intros [[H1 H2] H3]. split; auto. rewrite nth_map_seq by lia. now rewrite H2, H3.
  Qed.
  Lemma In_remove_duplicates f v : In v (members (remove_duplicates dedup f)) <-> In v (members f).
  Proof. destruct f as [l|d]; cbn [remove_duplicates members]; [apply Hdedup|tauto]. Qed.
  Lemma is_empty_true f : is_empty f = true <-> members f = [].
  Proof. unfold is_empty. destruct (members f); split; congruence. Qed.

  Lemma set_all_length root l : forall cl : list (list nat), length (fold_left (fun c v => lset c v [root]) l cl) = length cl.
  Proof. induction l as [|a l IH]; intros cl; cbn; auto. rewrite IH. apply length_lset. Qed.
  Lemma set_all_nth root l : forall (cl : list (list nat)) v, v < length cl ->
    (In v l -> nth v (fold_left (fun c v => lset c v [root]) l cl) [] = [root]) /\
    (~ In v l -> nth v (fold_left (fun c v => lset c v [root]) l cl) [] = nth v cl []).
  Proof.
    induction l as [|a l IH]; intros cl v Hv; cbn; [tauto|]. assert (Hv' : v < length (lset cl a [root])) by now rewrite length_lset.
    destruct (IH _ _ Hv') as [I1 I2]. split.
    - intros H. destruct (in_dec Nat.eq_dec v l) as [i|i]; auto. rewrite (I2 i). destruct H as [->|H]; [|tauto]. now apply nth_lset_same.
    - intros H. rewrite I2 by tauto. apply nth_lset_other. intros ->. tauto.
  Qed.

  (* -- edgeMap -- *)
  Definition reached_by (cl : list (list nat)) (F : list nat) (v : nat) : Prop := v < n /\ nth v cl [] = [] /\ exists u, In u F /\ similar u v.
  Lemma unclustered_true cl v : unclustered cl v = true <-> nth v cl [] = [].
  Proof. unfold unclustered. destruct (nth v cl []); split; congruence. Qed.
  Lemma push_map_ok cl f : (forall u, In u (members f) -> u < n) -> exists g, push_map adj similar_b cl f = Some g /\ forall v, In v (members g) <-> reached_by cl (members f) v.
  Proof.
    intros Hf. unfold push_map. set (ok := fun u v => unclustered cl v && (eps <=? sim u v)%Z).
    rewrite (@all_some_flat _ _ _ (fun u => map (fun v => if ok u v then [v] else []) (adj u))).
    - eexists. split; [reflexivity|]. intros v. cbn [members]. rewrite in_concat. split.
      + intros (l & Hl & Hv). apply in_flat_map in Hl as (u & Hu & Hl). apply in_map_iff in Hl as (w & <- & Hw). destruct (ok u w) eqn:E; [|destruct Hv]. destruct Hv as [<-|[]].
        unfold ok in E. apply andb_true_iff in E as [E1 E2]. apply unclustered_true in E1. apply Z.leb_le in E2. pose proof (Hf _ Hu) as Hun.
        split; [apply (sa_range HA Hun Hw)|]. split; auto. exists u. split; auto. now split.
      + intros (Hv & E & u & Hu & (H1 & H2 & H3)). exists [v]. split; [|cbn; auto]. apply in_flat_map. exists u. split; auto. apply in_map_iff. exists v. split; auto.
        unfold ok. apply unclustered_true in E. apply Z.leb_le in H3. now rewrite E, H3.
    - intros u Hu. apply all_some_map. intros v Hv. unfold update, ok. destruct (unclustered cl v); [|reflexivity]. now rewrite Hb by auto.
  Qed.
  Lemma pull_map_ok cl f : (forall u, In u (members f) -> u < n) -> exists g, pull_map n adj similar_b cl f = Some g /\ forall v, In v (members g) <-> reached_by cl (members f) v.
  Proof.
    intros Hf. unfold pull_map. set (ok := fun v => unclustered cl v && existsb (fun u => existsb (Nat.eqb u) (members f) && (eps <=? sim u v)%Z) (adj v)).
    rewrite (@all_some_map _ _ _ ok).
    - eexists. split; [reflexivity|]. intros v. cbn [members]. rewrite filter_In, map_length, seq_length, in_seq. split.
      + intros [H1 H2]. rewrite nth_map_seq in H2 by lia. unfold ok in H2. apply andb_true_iff in H2 as [E1 E2]. apply unclustered_true in E1.
        apply existsb_exists in E2 as (u & Hu & E2). apply andb_true_iff in E2 as [E2 E3]. apply existsb_exists in E2 as (u' & Hu' & E2). apply Nat.eqb_eq in E2 as <-. apply Z.leb_le in E3.
        split; [lia|]. split; auto. exists u. split; auto. split; auto. split; auto. apply (sa_sym HA); auto; lia.
      + intros (Hv & E & u & Hu & (H1 & H2 & H3)). split; [lia|]. rewrite nth_map_seq by lia. unfold ok. apply unclustered_true in E. rewrite E. cbn [andb].
        apply existsb_exists. exists u. split; [apply (sa_sym HA); auto|]. apply Z.leb_le in H3. rewrite H3, andb_true_r. apply existsb_exists. exists u. split; auto. apply Nat.eqb_refl.
    - intros v Hv. apply in_seq in Hv. unfold ok. destruct (unclustered cl v) eqn:E; cbn [andb]; [|reflexivity].
      rewrite (@all_some_map _ _ _ (fun u => existsb (Nat.eqb u) (members f) && (eps <=? sim u v)%Z)).
      + cbn [option_map]. f_equal. clear. induction (adj v) as [|u l IH]; cbn; auto. now rewrite IH.
      + intros u Hu. destruct (existsb (Nat.eqb u) (members f)) eqn:M; cbn [andb]; [|reflexivity]. unfold update. rewrite E. apply Hb; [apply (sa_range HA) in Hu; [tauto|lia]|]. apply (sa_sym HA); auto; lia.
  Qed.

  (* -- one search -- *)
  Definition count_empty (cl : list (list nat)) : nat := length (filter (unclustered cl) (seq 0 n)).
  Record searching (cl0 : list (list nat)) (root : nat) (f : frontier) (cl : list (list nat)) : Prop := {
    s_len : length cl = n;
    s_old : forall v, v < n -> nth v cl [] = nth v cl0 [] \/ (nth v cl0 [] = [] /\ core v /\ linked root v /\ nth v cl [] = [root]);
    s_front : forall v, In v (members f) -> v < n /\ nth v cl [] = [] /\ (core v -> linked root v);
    s_closed : forall u v, u < n -> nth u cl [] = [root] -> nth u cl0 [] = [] -> core v -> similar u v -> nth v cl [] <> [] \/ In v (members f);
    s_root : core root -> nth root cl [] = [root] \/ In root (members f) }.

  Lemma searching_empty cl0 root f cl : searching cl0 root f cl -> members f = [] -> searching cl0 root (Sparse []) cl.
  Proof.
    intros [A1 A2 A3 A4 A5] E. constructor; auto; cbn [members].
    - intros v [].
    - intros u v H1 H2 H3 H4 H5. destruct (A4 u v H1 H2 H3 H4 H5) as [|Q]; auto. rewrite E in Q. auto.
    - intros C. destruct (A5 C) as [|Q]; auto. rewrite E in Q. auto.
  Qed.
  Lemma search_ok root cl0 fuel : forall round f cl, searching cl0 root f cl -> (is_empty f = false -> count_empty cl + 2 <= fuel + (if existsb (fun v => nth v cores false) (members f) then 0 else count_empty cl + 1)) -> 
    exists cl', search dedup pull n adj similar_b cores root fuel round f cl = Some cl' /\ searching cl0 root (Sparse []) cl'.
  Proof.
    induction fuel as [|fuel IH]; intros round f cl HS Hfuel.
    - cbn [search]. destruct (is_empty f) eqn:E.
      + exists cl. split; auto. apply is_empty_true in E. now apply searching_empty in HS.
      + specialize (Hfuel eq_refl). destruct (existsb _ _) in Hfuel; lia.
    - cbn [search]. destruct (is_empty f) eqn:E.
      + exists cl. split; auto. apply is_empty_true in E. now apply searching_empty in HS.
      + specialize (Hfuel eq_refl). set (cf := remove_duplicates dedup (vertex_filter (fun v => nth v cores false) f)).
        assert (Hcf : forall v, In v (members cf) <-> In v (members f) /\ core v) by (intros v; unfold cf; rewrite In_remove_duplicates, In_vertex_filter, nth_cores; tauto).
        set (cl' := fold_left (fun c v => lset c v [root]) (members cf) cl).
        destruct HS as [A1 A2 A3 A4 A5].
        assert (L' : length cl' = n) by (unfold cl'; now rewrite set_all_length).
        assert (N1 : forall v, In v (members cf) -> nth v cl' [] = [root]) by (intros v Hv; apply set_all_nth; auto; rewrite A1; apply Hcf in Hv as [Hv _]; now apply A3).
        assert (N2 : forall v, v < n -> ~ In v (members cf) -> nth v cl' [] = nth v cl []) by (intros v Hv Hn; apply set_all_nth; auto; lia).
        assert (Hcn : forall u, In u (members cf) -> u < n) by (intros u Hu; apply Hcf in Hu as [Hu _]; now apply A3).
        assert (EM : exists g, (if pull root round then pull_map n adj similar_b else push_map adj similar_b) cl' cf = Some g /\ forall v, In v (members g) <-> reached_by cl' (members cf) v)
          by (destruct (pull root round); [now apply pull_map_ok|now apply push_map_ok]).
        destruct EM as (g & Eg & Hg).
        match goal with |- context [match ?X with Some _ => _ | None => _ end] => change X with ((if pull root round then pull_map n adj similar_b else push_map adj similar_b) cl' cf) end.
        rewrite Eg. apply IH.
        * constructor; auto.
          -- intros v Hv. destruct (in_dec Nat.eq_dec v (members cf)) as [i|i].
             ++ right. rewrite (N1 _ i). apply Hcf in i as [i C]. destruct (A3 _ i) as (_ & Em & Li). destruct (A2 v Hv) as [Q|(_ & _ & _ & Q)]; [|congruence]. rewrite <- Q. auto.
             ++ rewrite (N2 _ Hv i). apply A2; auto.
          -- intros v Hv. apply Hg in Hv as (Hv & Em & u & Hu & S). split; auto. split; auto. intros C. apply Hcf in Hu as [Hu Cu]. eapply linked_trans; [apply A3; eauto|]. now apply linked_step.
          -- intros u v Hu Eu Eu0 Cv S. destruct (nth v cl' []) eqn:Ev; [|left; discriminate]. right. apply Hg. assert (Hv : v < n) by apply Cv. split; auto. split; auto.
             destruct (in_dec Nat.eq_dec u (members cf)) as [i|i]; [exists u; auto|]. rewrite (N2 _ Hu i) in Eu. destruct (A4 u v Hu Eu Eu0 Cv S) as [Q|Q].
             ++ destruct (in_dec Nat.eq_dec v (members cf)) as [j|j]; [rewrite (N1 _ j) in Ev; discriminate|]. rewrite (N2 _ Hv j) in Ev. tauto.
             ++ assert (j : In v (members cf)) by (apply Hcf; auto). rewrite (N1 _ j) in Ev. discriminate.
          -- intros C. left. destruct (A5 C) as [Q|Q]; [|apply N1, Hcf; auto]. destruct (in_dec Nat.eq_dec root (members cf)) as [i|i]; auto. rewrite N2; auto. apply C.
        * intros Eg'. destruct (existsb (fun v => nth v cores false) (members f)) eqn:X.
          -- assert (Hlt : count_empty cl' < count_empty cl).
             { apply existsb_exists in X as (w & Hw & Cw). apply nth_cores in Cw. assert (Hwc : In w (members cf)) by (apply Hcf; auto). destruct (A3 _ Hw) as (Hwn & Ew & _).
               unfold count_empty. rewrite (@filter_ext_in' _ (unclustered cl') (fun v => unclustered cl v && negb (existsb (Nat.eqb v) (members cf))) (seq 0 n)).
               - rewrite <- filter_twice.
                 assert (G : forall l, In w l -> length (filter (fun x => negb (existsb (Nat.eqb x) (members cf))) l) < length l).
                 { clear - Hwc. induction l as [|a l IH]; intros Hin; [destruct Hin|]. cbn [filter length]. pose proof (filter_len_le (fun x => negb (existsb (Nat.eqb x) (members cf))) l).
                   destruct (negb (existsb (Nat.eqb a) (members cf))) eqn:E; cbn [length]; [|lia]. destruct Hin as [->|Hin]; [|specialize (IH Hin); lia].
                   exfalso. apply negb_true_iff in E. assert (Y : existsb (Nat.eqb w) (members cf) = true) by (apply existsb_exists; exists w; split; auto; apply Nat.eqb_refl). congruence. }
                 apply G. apply filter_In. split; [apply in_seq; lia|]. now apply unclustered_true.
               - intros v Hv. apply in_seq in Hv. destruct (in_dec Nat.eq_dec v (members cf)) as [i|i].
                 + assert (Y : existsb (Nat.eqb v) (members cf) = true) by (apply existsb_exists; exists v; split; auto; apply Nat.eqb_refl). rewrite Y, andb_false_r. unfold unclustered. now rewrite (N1 _ i).
                 + assert (Y : existsb (Nat.eqb v) (members cf) = false) by (apply not_true_is_false; intros Y; apply existsb_exists in Y as (z & Hz & Y); apply Nat.eqb_eq in Y as <-; tauto). rewrite Y, andb_true_r. unfold unclustered. now rewrite N2 by (auto; lia). }
             destruct (existsb (fun v => nth v cores false) (members g)); lia.
          -- exfalso. assert (Z : members cf = []).
             { destruct (members cf) as [|w l] eqn:Q; auto. exfalso. assert (Hw : In w (members f) /\ core w) by (apply Hcf; cbn; auto). destruct Hw as [Hw Cw]. apply nth_cores in Cw.
               assert (Y : existsb (fun v => nth v cores false) (members f) = true) by (apply existsb_exists; exists w; auto). congruence. }
             unfold is_empty in Eg'. destruct (members g) as [|w l] eqn:Q; [discriminate|]. assert (Hw : reached_by cl' (members cf) w) by (apply Hg; cbn; auto). destruct Hw as (_ & _ & u & Hu & _). rewrite Z in Hu. destruct Hu.
  Qed.

  (* -- all roots -- *)
  Definition found (r : nat) (cl : list (list nat)) : Prop := length cl = n /\ forall v, v < n ->
    (core v /\ exists c, cluster_of v c /\ c < r /\ nth v cl [] = [c]) \/ (nth v cl [] = [] /\ (core v -> forall w, core w -> linked v w -> r <= w)).
  Lemma search_root_ok r cl : found r cl -> r < n -> exists cl', search_root dedup pull n adj similar_b cores (Some cl) r = Some cl' /\ found (S r) cl'.
  Proof.
    intros [HL HF] Hr. unfold search_root. destruct (unclustered cl r) eqn:E.
    - apply unclustered_true in E. destruct (HF r Hr) as [(_ & c & _ & _ & Q)|[_ Hleast]]; [congruence|].
      assert (Hno : forall v, v < n -> nth v cl [] <> [r]) by (intros v Hv Q; destruct (HF v Hv) as [(_ & c & _ & Hc & Q')|[Q' _]]; rewrite Q in Q'; [injection Q' as <-; lia|discriminate]).
      destruct (@search_ok r cl (n + 2) 0 (Sparse [r]) cl) as (cl' & E' & [A1 A2 A3 A4 A5]).
      { constructor; auto; cbn [members].
        - intros v [<-|[]]. split; auto. split; auto. intros _. apply rst_refl.
        - intros u v Hu Q. destruct (Hno u Hu Q).
        - cbn. auto. }
      { intros _. assert (count_empty cl <= n) by (unfold count_empty; etransitivity; [apply filter_len_le|]; now rewrite seq_length). destruct (existsb _ _); lia. }
      exists cl'. split; auto. split; auto. intros v Hv.
      assert (Hset : core r -> forall v, linked r v -> nth v cl' [] = [r]).
      { intros C w L. assert (P : nth w cl' [] = [r] <-> nth r cl' [] = [r]).
        { symmetry. apply (@linked_closed (fun w => nth w cl' [] = [r])); auto. intros a b Pa Ca Cb S. assert (Ha : a < n) by apply Ca. assert (Hb' : b < n) by apply Cb.
          destruct (A2 a Ha) as [Q|(Q & _)]; [rewrite Pa in Q; destruct (Hno a Ha); auto|].
          destruct (A4 a b Ha Pa Q Cb S) as [Qb|[]]. destruct (A2 b Hb') as [Qo|(_ & _ & _ & Qn)]; auto. exfalso. rewrite Qo in Qb. destruct (HF b Hb') as [(_ & c & Hc & Hcr & _)|[Q0 _]]; [|tauto].
          destruct Hc as (Cc & Lc & _). destruct (A2 a Ha) as [Q'|(_ & _ & La & _)]; [rewrite Q in Q'; congruence|].
          assert (r <= c); [|lia]. apply Hleast; auto. eapply linked_trans; [exact La|]. eapply linked_trans; [|exact Lc]. now apply linked_step. }
        apply P. destruct (A5 C) as [|[]]; auto. }
      destruct (A2 v Hv) as [Q|(Q0 & Cv & Lv & Q)].
      + rewrite Q. destruct (HF v Hv) as [(C & c & H1 & H2 & H3)|[H1 H2]]; [left; split; auto; exists c; auto|]. right. split; auto. intros Cv w Cw L.
        specialize (H2 Cv w Cw L). destruct (Nat.eq_dec w r) as [->|]; [|lia]. exfalso. rewrite H1 in Q. rewrite (Hset Cw v (linked_sym L)) in Q. discriminate.
      + left. split; auto. exists r. split; [|auto]. assert (Cr : core r) by now apply (linked_core Lv). split; auto. split; [now apply linked_sym|].
        intros w Cw L. apply Hleast; auto. eapply linked_trans; eauto.
    - exists cl. split; auto. split; auto. intros v Hv. destruct (HF v Hv) as [(C & c & H1 & H2 & H3)|[H1 H2]]; [left; split; auto; exists c; auto|].
      right. split; auto. intros Cv w Cw L. specialize (H2 Cv w Cw L). destruct (Nat.eq_dec w r) as [->|]; [|lia]. exfalso.
      destruct (HF r Hr) as [(_ & c & (Cc & Lc & _) & Hc & _)|[Q _]]; [|apply unclustered_true in Q; congruence].
      destruct (HF v Hv) as [(_ & c' & _ & _ & Q)|[_ Q]]; [congruence|]. assert (r <= c); [|lia]. apply (Q Cv c Cc). eapply linked_trans; eauto.
  Qed.
  Lemma search_all_ok : exists cl, fold_left (search_root dedup pull n adj similar_b cores) (seq 0 n) (Some (repeat [] n)) = Some cl /\ found n cl.
  Proof.
    assert (G : forall k, k <= n -> exists cl, fold_left (search_root dedup pull n adj similar_b cores) (seq 0 k) (Some (repeat [] n)) = Some cl /\ found k cl).
    { induction k as [|k IH]; intros Hk.
      - exists (repeat [] n). split; auto. split; [apply repeat_length|]. intros v Hv. right. split; [|intros; lia]. destruct (nth_in_or_default v (repeat (@nil nat) n) []) as [H|H]; auto. now apply repeat_spec in H.
      - destruct IH as (cl & E & F); [lia|]. rewrite seq_S, fold_left_app, E. cbn [fold_left Nat.add]. now apply search_root_ok. }
    now apply G.
  Qed.

  Lemma naive_ok : exists out, naive_cluster dedup pull n adj similar_b mu = Some out /\ all_clusters n adj sim mu eps out.
  Proof.
    unfold naive_cluster. rewrite core_bitmap_ok. destruct search_all_ok as (cl & E & HL & HF). rewrite E.
    assert (HC : forall v, core v -> exists c, cluster_of v c /\ nth v cl [] = [c]).
    { intros v C. assert (Hv : v < n) by apply C. destruct (HF v Hv) as [(_ & c & H & _ & Q)|[_ Q]]; [exists c; auto|]. exfalso. specialize (Q C v C (rst_refl _ _ _)). lia. }
    assert (HN : forall v, v < n -> ~ core v -> nth v cl [] = []) by (intros v Hv C; destruct (HF v Hv) as [(C' & _)|[Q _]]; tauto).
    set (part := fun v x => if nth x cores false && (eps <=? sim v x)%Z then nth x cl [] else []).
    set (g := fun v => if unclustered cl v then dedup (concat (map (part v) (adj v))) else nth v cl []).
    rewrite (@all_some_map _ _ _ g).
    - exists (map g (seq 0 n)). split; auto. constructor.
      + now rewrite map_length, seq_length.
      + intros u C. destruct (HC u C) as (c & Hc & Q). exists c. split; auto. rewrite nth_map_seq by apply C. unfold g. unfold unclustered. now rewrite Q.
      + intros v Hv C. rewrite nth_map_seq by auto. pose proof (HN v Hv C) as Q. unfold g. rewrite (proj2 (unclustered_true cl v) Q). split; [apply Hdedup|]. intros c. rewrite (proj2 (Hdedup _)), in_concat. split.
        * intros (l & Hl & Hc). apply in_map_iff in Hl as (x & <- & Hx). unfold part in Hc. destruct (nth x cores false && (eps <=? sim v x)%Z) eqn:B; [|destruct Hc]. apply andb_true_iff in B as [B1 B2].
          apply nth_cores in B1. apply Z.leb_le in B2. destruct (HC x B1) as (c' & Hc' & Qx). rewrite Qx in Hc. destruct Hc as [<-|[]]. exists x. split; auto. split; auto. apply similar_sym. now split.
        * intros (x & (Cx & S) & Hc). apply similar_sym in S as (_ & Hx & B). exists (nth x cl []). split.
          -- apply in_map_iff. exists x. split; auto. unfold part. apply nth_cores in Cx. apply Z.leb_le in B. now rewrite Cx, B.
          -- destruct (HC x Cx) as (c' & Hc' & Qx). rewrite Qx. left. destruct Hc as (C1 & L1 & M1), Hc' as (C2 & L2 & M2). specialize (M1 c' C2 L2). specialize (M2 c C1 L1). lia.
    - intros v Hv. apply in_seq in Hv. unfold attach, g. destruct (unclustered cl v); auto. rewrite (@all_some_map _ _ _ (part v)); [reflexivity|]. intros x Hx. unfold part.
      destruct (nth x cores false) eqn:B; cbn [andb]; auto. rewrite Hb by (auto; lia). destruct (eps <=? sim v x)%Z; auto. apply nth_cores in B. destruct (HC x B) as (c & _ & Qx). now rewrite Qx.
  Qed.
End Search.
