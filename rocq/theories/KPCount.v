(* Clique peeling: what the calls of one round add up to. *)
From Coq Require Import Permutation Sorted.
From Verif Require Import Base ListUtil ISModel ISSpec KCModel CQModel CQSpec CQRec CQSetup CQCount CQCliques CQFinal KPModel KPSpec.
Unset Strict Implicit.

Lemma both_ok A : forall B, increasing A -> increasing B -> both A B = filter (has B) A.
Proof.
  induction A as [|a A IHA]; intros B HA HB; [reflexivity|].
  assert (HA' : increasing A) by now inversion HA. assert (Ha : Forall (lt a) A) by now inversion HA. rewrite Forall_forall in Ha.
  induction B as [|b B IHB]; [symmetry; cbn [both]; apply filter_none; auto|].
  assert (HB' : increasing B) by now inversion HB. assert (Hb : Forall (lt b) B) by now inversion HB. rewrite Forall_forall in Hb.
  cbn [both]. destruct (Nat.eqb_spec a b) as [<-|Hne].
  - rewrite (IHA B HA' HB'). cbn [filter]. rewrite has_cons, Nat.eqb_refl. cbn [orb]. f_equal. apply filter_ext_in'. intros x Hx. rewrite has_cons.
    specialize (Ha x Hx). rewrite (proj2 (Nat.eqb_neq x a)) by lia. reflexivity.
  - destruct (Nat.ltb_spec a b) as [Hlt|Hge].
    + rewrite (IHA (b :: B) HA' HB). cbn [filter]. assert (E : has (b :: B) a = false).
      { apply has_false. intros [X|X]; [lia|]. specialize (Hb a X). lia. }
      now rewrite E.
    + fold (both (a :: A)). change (both (a :: A) B = filter (has (b :: B)) (a :: A)). rewrite IHB by auto. apply filter_ext_in'. intros x Hx. rewrite has_cons.
      assert (x <> b); [|now rewrite (proj2 (Nat.eqb_neq x b))]. destruct Hx as [<-|Hx]; [auto|]. specialize (Ha x Hx). lia.
Qed.

Lemma occ_in u c : NoDup c -> occ u c = if has c u then 1 else 0.
Proof.
  intros ND. unfold occ. destruct (has c u) eqn:X.
  - apply has_In in X. apply in_split in X as (l1 & l2 & ->). apply NoDup_remove_2 in ND. rewrite in_app_iff in ND. rewrite filter_app. cbn [filter]. rewrite Nat.eqb_refl, app_length. cbn [length].
    rewrite !filter_none; auto; intros x Hx; apply Nat.eqb_neq; intros ->; tauto.
  - apply has_false in X. rewrite filter_none; auto. intros x Hx. apply Nat.eqb_neq. intros ->. auto.
Qed.
Lemma min_by (d : nat -> nat) (p : nat -> bool) l : existsb p l = true -> exists i, In i l /\ p i = true /\ forall j, In j l -> p j = true -> d i <= d j.
Proof.
  induction l as [|a l IH]; [discriminate|]. cbn [existsb]. destruct (existsb p l) eqn:E.
  - intros _. destruct (IH eq_refl) as (i & Hi & Hp & Hm). destruct (p a) eqn:Ea.
    + destruct (Nat.le_gt_cases (d a) (d i)) as [X|X].
      * exists a. split; [now left|]. split; auto. intros j [<-|Hj] Hpj; [lia|]. specialize (Hm j Hj Hpj). lia.
      * exists i. split; [now right|]. split; auto. intros j [<-|Hj] Hpj; [lia|]. auto.
    + exists i. split; [now right|]. split; auto. intros j [<-|Hj] Hpj; [congruence|]. auto.
  - rewrite Bool.orb_false_r. intros Ha. exists a. split; [now left|]. split; auto. intros j [<-|Hj] Hpj; [lia|]. exfalso.
    assert (existsb p l = true) by (apply existsb_exists; eauto). congruence.
Qed.
Lemma fop_filter {A} (R : A -> A -> Prop) p l : ForallOrdPairs R l -> ForallOrdPairs R (filter p l).
Proof. induction 1 as [|a l Hf H IH]; simpl; [constructor|]. destruct (p a); auto. constructor; auto. rewrite Forall_forall in *. intros x Hx. apply filter_In in Hx as [Hx _]. auto. Qed.
Lemma fop_impl {A} (R Q : A -> A -> Prop) l : (forall a b, In a l -> In b l -> R a b -> Q a b) -> ForallOrdPairs R l -> ForallOrdPairs Q l.
Proof.
  intros H F. induction F as [|a l Hf F IH]; constructor.
  - rewrite Forall_forall in *. intros x Hx. apply H; [now left|now right|auto].
  - apply IH. intros x y Hx Hy. apply H; now right.
Qed.

Section Count.
  Variables half n : nat.
  Variable outn : nat -> list nat.
  Hypothesis HG : sgraph n outn.
  Variable rank : nat -> nat.
  Hypothesis HR : is_rank n rank.
  Variable K : nat.
  Hypothesis HK : 3 <= K <= half + 1.
  Variable label : bool.
  Variable st : nat -> nat.
  Notation dg := (filtered outn K rank).
  Notation ign := (ignore_f rank st).
  Definition alive (v : nat) : bool := negb (st v =? 2).
  Definition active (v : nat) : bool := st v =? 1.
  Definition remaining (v : nat) : bool := st v =? 0.
  Hypothesis Hst : forall v, st v = 0 \/ st v = 1 \/ st v = 2.

  Definition dgi (i v : nat) : list nat := if ign i v then filter (fun w => ign v w && ign i w) (dg v) else [].
  Lemma in_dgi i v w : In w (dgi i v) <-> ign i v = true /\ ign v w = true /\ ign i w = true /\ In w (dg v).
  Proof. unfold dgi. destruct (ign i v); [|simpl; intuition discriminate]. rewrite filter_In, Bool.andb_true_iff. tauto. Qed.
  Lemma ign_iff u v : ign u v = true <-> alive u = true /\ alive v = true /\ (active v = true -> rank u < rank v).
  Proof.
    unfold ignore_f, alive, active. destruct (Nat.eqb_spec (st u) 2); cbn [orb negb]; [intuition discriminate|]. destruct (Nat.eqb_spec (st v) 2); cbn [negb]; [intuition discriminate|].
    destruct (Nat.eqb_spec (st v) 0) as [E|E].
    - rewrite E. cbn. intuition discriminate.
    - destruct (Nat.eqb_spec (st v) 1); [|destruct (Hst v) as [|[]]; tauto]. rewrite Nat.ltb_lt. tauto.
  Qed.
  Lemma dgi_ord i v w : In w (dgi i v) -> rank v < rank w.
  Proof. intros H. apply in_dgi in H as (_ & _ & _ & H). apply in_filtered in H. tauto. Qed.
  Lemma dgf_inc v : v < n -> increasing (dg v).
  Proof. intros Hv. apply ssort_filter. now apply HG. Qed.
  Lemma dgi_inc i v : v < n -> increasing (dgi i v).
  Proof. intros Hv. unfold dgi. destruct (ign i v); [|constructor]. apply ssort_filter. now apply dgf_inc. Qed.
  Lemma dgi_lt i v w : v < n -> In w (dgi i v) -> w < n.
  Proof. intros Hv H. apply in_dgi in H as (_ & _ & _ & H). apply in_filtered in H as [H _]. now apply (HG Hv) in H. Qed.

  (* the rows *)
  Lemma number_f_from i B : forall a old, NoDup B ->
    let old' := fold_left (fun old p => if ign i (fst p) then fset old (fst p) (snd p + 1) else old) (combine B (seq a (length B))) old in
    (forall j, j < length B -> old' (nth j B 0) = if ign i (nth j B 0) then a + j + 1 else old (nth j B 0)) /\ forall w, ~ In w B -> old' w = old w.
  Proof.
    induction B as [|b B IH]; intros a old ND; [split; [simpl; lia|auto]|]. apply NoDup_cons_iff in ND as [Hb ND]. cbn [length seq combine fold_left fst snd].
    set (old1 := if ign i b then fset old b (a + 1) else old).
    assert (H1 : forall w, w <> b -> old1 w = old w) by (intros w Hw; unfold old1; destruct (ign i b); auto; now apply fset_other).
    destruct (IH (S a) old1 ND) as [A C]. cbv zeta. split.
    - intros [|j] Hj; cbn [nth].
      + rewrite C by auto. unfold old1. destruct (ign i b); auto. rewrite fset_same. lia.
      + simpl in Hj. rewrite A by lia. rewrite H1; [destruct (ign i (nth j B 0)); auto; lia|]. intros E. apply Hb. rewrite <- E. apply nth_In. lia.
    - intros w Hw. simpl in Hw. rewrite C by tauto. apply H1. intuition.
  Qed.
  Lemma setup_labels_f_ok i old : NoDup (outn i) -> (forall w, old w = 0) ->
    let '(edges, old') := setup_labels_f outn K rank st i old in rows_ok (dgi i) (outn i) edges /\ forall w, old' w = 0.
  Proof.
    intros ND H. unfold setup_labels_f. set (B := outn i) in *. destruct (number_f_from i 0 old ND) as [N1 N2]. unfold number_f. fold B. set (old1 := fold_left _ _ old) in *. split.
    - intros j. set (v := nth j B 0). unfold dgi. destruct (ign i v) eqn:Ev; [|split; [reflexivity|intros x []]]. unfold row_f. generalize (dg v) as T. intros T.
      induction T as [|w T [IH1 IH2]]; [split; [reflexivity|intros x []]|]. cbn [flat_map filter].
      destruct (ign v w) eqn:Evw; cbn [andb]; [|split; [exact IH1|exact IH2]].
      destruct (has B w) eqn:E.
      + apply has_In in E as E'. destruct (In_nth B w 0 E') as (y & Hy & Ey). pose proof (N1 y Hy) as N. rewrite Ey in N. destruct (ign i w) eqn:Eiw.
        * rewrite N. destruct (Nat.ltb_spec 0 (0 + y + 1)); [|lia]. replace (0 + y + 1 - 1) with y by lia. cbn [app map filter]. rewrite E, Ey, IH1. split; auto. intros x [<-|X]; auto.
        * rewrite N, H. cbn [Nat.ltb Nat.leb app]. split; [exact IH1|exact IH2].
      + rewrite N2, H by (now apply has_false). cbn [Nat.ltb Nat.leb app]. destruct (ign i w); cbn [filter]; [rewrite E|]; split; auto.
    - intros w. rewrite set_all_spec. destruct (has B w) eqn:E; auto. rewrite N2, H; auto. now apply has_false.
  Qed.
  Lemma setup_intersect_f_ok i : i < n -> rows_ok (dgi i) (outn i) (setup_intersect_f outn K rank st i).
  Proof.
    intros Hi j. unfold setup_intersect_f. set (B := outn i). set (v := nth j B 0). unfold dgi. destruct (ign i v) eqn:Ev; [|split; [reflexivity|intros x []]].
    assert (Hv : v < n). { unfold v. destruct (Nat.lt_ge_cases j (length B)); [apply (HG Hi), nth_In; auto|rewrite nth_overflow by auto; lia]. }
    destruct (@common_ok B 0 (dg v) ltac:(now apply HG) (dgf_inc Hv)) as [A C]. split.
    - transitivity (filter (fun w => ign i w && ign v w) (map (fun x => nth (x - 0) B 0) (common_from 0 B (dg v)))).
      + generalize (common_from 0 B (dg v)) as T. induction T as [|x T IH]; auto. cbn [filter map]. rewrite Nat.sub_0_r. destruct (ign i (nth x B 0) && ign v (nth x B 0)); cbn [map]; now rewrite IH.
      + rewrite A. generalize (dg v) as T. induction T as [|x T IH]; auto. cbn [filter]. destruct (has B x) eqn:Eh; cbn [filter]; rewrite IH.
        * rewrite (Bool.andb_comm (ign v x)). destruct (ign i x && ign v x); cbn [filter]; [now rewrite Eh|reflexivity].
        * destruct (ign v x && ign i x); cbn [filter]; [now rewrite Eh|reflexivity].
    - intros x X. apply filter_In in X as [X _]. apply C in X. lia.
  Qed.
  Definition gi (i : nat) : list (list nat) := chains (dgi i) (K - 1) (outn i).
  Lemma root_ok i : 4 <= K -> i < n -> body_ok (clique_root half outn K rank label st) gi i.
  Proof.
    intros HK4 Hi sp [H1 H2]. unfold clique_root. destruct (Nat.eqb_spec (length (outn i)) 0) as [E|E].
    - split; [split; auto|]. unfold gi. rewrite (@chains_short (dgi i) rank (dgi_ord (i := i)) (K - 1) (outn i)) by lia. split; auto.
    - assert (ND : NoDup (outn i)) by (apply inc_nodup; now apply HG).
      assert (HS : let '(edges, old') := if label then setup_labels_f outn K rank st i (snd sp) else (setup_intersect_f outn K rank st i, snd sp) in
        rows_ok (dgi i) (outn i) edges /\ forall w, old' w = 0).
      { destruct label; [now apply setup_labels_f_ok|]. split; auto. now apply setup_intersect_f_ok. }
      destruct (if label then _ else _) as [edges old']. destruct HS as [HRw Ho].
      pose proof (@local_rec half (dgi i) rank (dgi_ord (i := i)) (fun _ l => [l]) (fun _ l => ltac:(cbn [concat]; rewrite app_nil_r; reflexivity))
        (outn i) edges (K - 1 - 1) 0 [i] (fst sp) ND HRw ltac:(lia) ltac:(lia) H1) as HL.
      destruct (hrec _ _ _ _ _ _ _ _ _ _) as [[c L'] cl]. destruct HL as [G HL]. split; [split; auto|]. unfold gi. now replace (K - 1 - 1 + 1) with (K - 1) in G by lia.
  Qed.
  Lemma tri_total i u : K = 3 -> i < n -> total (tri_root outn K rank st i) u = occs id_ u (gi i).
  Proof.
    intros E3 Hi. unfold tri_root, gi. replace (K - 1) with 2 by lia. cbn [chains]. rewrite total_flat, occs_flat. f_equal. apply map_ext_in. intros v Hv.
    assert (Hvn : v < n) by now apply (HG Hi) in Hv.
    change (flat_map (fun v0 => map (cons v0) [[]]) (filter (has (outn i)) (dgi i v))) with (chains (dgi i) 1 (filter (has (outn i)) (dgi i v))). rewrite chains_one.
    unfold dgi. destruct (ign i v) eqn:Ev; [|unfold occs; reflexivity]. unfold vtx_intersect. rewrite (both_ok (dgf_inc Hvn)) by (now apply HG).
    rewrite occs_cons, map_length, total_app, total_one.
    assert (E : filter (fun w => ign i w && ign v w) (filter (has (outn i)) (dg v)) = filter (has (outn i)) (filter (fun w => ign v w && ign i w) (dg v))).
    { generalize (dg v) as T. induction T as [|x T IH]; auto. cbn [filter]. destruct (has (outn i) x) eqn:Eh; cbn [filter]; rewrite IH.
      - rewrite (Bool.andb_comm (ign v x)). destruct (ign i x && ign v x); cbn [filter]; [now rewrite Eh|reflexivity].
      - destruct (ign v x && ign i x); cbn [filter]; [now rewrite Eh|reflexivity]. }
    rewrite E. set (W := filter (has (outn i)) _). clear E. rewrite Nat.add_comm. f_equal. unfold occs. rewrite map_map. cbn [map]. induction W as [|a l IHl]; simpl; auto.
    change ((a, 1) :: map (fun w => (w, 1)) l) with ([(a, 1)] ++ map (fun w => (w, 1)) l). rewrite total_app, total_one, IHl. unfold occ. simpl. destruct (a =? u); auto.
  Qed.

  (* all roots together *)
  Variable L : list nat.
  Hypothesis HL : forall v, In v L <-> active v = true.
  Hypothesis HLn : forall v, In v L -> v < n.
  Hypothesis HLnd : NoDup L.
  Definition found : list (list nat) := flat_map (fun i => map (cons i) (gi i)) L.
  Lemma active_alive v : active v = true -> alive v = true.
  Proof. unfold active, alive. intros H. apply Nat.eqb_eq in H. now rewrite H. Qed.
  Lemma in_gi i c : i < n -> active i = true -> In c (gi i) -> length c = K - 1 /\ NoDup (i :: c) /\ (forall x, In x c -> In x (outn i)) /\ ForallOrdPairs (fun v w => In w (dgi i v)) c /\
    StronglySorted (fun a b => rank a < rank b) c /\ (forall x, In x c -> ign i x = true).
  Proof.
    intros Hi Ha H. unfold gi in H. pose proof (proj1 (@chains_iff (dgi i) (K - 1) (outn i) c) H) as (A & B & C).
    destruct (@chain_in (dgi i) rank (dgi_ord (i := i)) (K - 1) (outn i) c H) as (_ & D & _).
    assert (HS : forall l, ForallOrdPairs (fun v w => In w (dgi i v)) l -> StronglySorted (fun a b => rank a < rank b) l).
    { intros l F. induction F as [|a l Hf F IH]; constructor; auto. rewrite Forall_forall in *. intros x Hx. eapply dgi_ord; eauto. }
    assert (HV : forall x, In x c -> ign i x = true).
    { intros x Hx. destruct c as [|a [|b c]]; [destruct Hx|simpl in A; lia|].
      destruct (Nat.eq_dec x a) as [->|Hne].
      - inversion C as [|? ? Hf _]; subst. rewrite Forall_forall in Hf. specialize (Hf b (or_introl eq_refl)). apply in_dgi in Hf. tauto.
      - inversion C as [|? ? Hf _]; subst. rewrite Forall_forall in Hf. destruct Hx as [->|Hx]; [congruence|]. specialize (Hf x Hx). apply in_dgi in Hf. tauto. }
    repeat split; auto. constructor; auto. intros X. apply HV, ign_iff in X as (_ & _ & X). specialize (X Ha). lia.
  Qed.
  Lemma in_found c : In c found <-> exists i c', c = i :: c' /\ In i L /\ In c' (gi i).
  Proof.
    unfold found. rewrite in_flat_map. split.
    - intros (i & Hi & H). apply in_map_iff in H as (c' & <- & H). eauto.
    - intros (i & c' & -> & Hi & H). exists i. split; auto. apply in_map_iff. eauto.
  Qed.
  Lemma found_nodup : NoDup found.
  Proof.
    apply nodup_cons_flat; auto. intros i Hi. apply (@chains_nodup n (dgi i)).
    - intros v w. apply dgi_lt.
    - intros v. apply dgi_inc.
    - intros x Hx. eapply (HG (HLn Hi)); eauto.
    - apply inc_nodup. now apply HG, HLn.
  Qed.
  Definition canon (c : list nat) : list nat := filter (has c) (seq 0 n).
  Lemma in_canon c v : In v (canon c) <-> v < n /\ In v c.
  Proof. unfold canon. rewrite filter_In, in_seq, has_In. intuition lia. Qed.
  Lemma found_lt c x : In c found -> In x c -> x < n.
  Proof.
    intros H Hx. apply in_found in H as (i & c' & -> & Hi & H). pose proof (HLn Hi) as Hin. destruct Hx as [<-|Hx]; auto.
    apply in_gi in H as (_ & _ & H & _); auto; [|now apply HL]. apply H in Hx. now apply (HG Hin) in Hx.
  Qed.
  (* the root is the active vertex of the smallest rank *)
  Lemma root_min i c x : In i L -> In c (gi i) -> In x (i :: c) -> active x = true -> x = i \/ rank i < rank x.
  Proof.
    intros Hi H [<-|Hx] Ha; auto. right. apply in_gi in H as (_ & _ & _ & _ & _ & H); auto; [|now apply HL]. apply H, ign_iff in Hx. tauto.
  Qed.
  Lemma canon_inj c c' : In c found -> In c' found -> canon c = canon c' -> c = c'.
  Proof.
    intros H H' E. assert (X : forall x, In x c <-> In x c').
    { intros x. split; intros Hx.
      - assert (Y : In x (canon c)) by (apply in_canon; split; [exact (found_lt H Hx)|exact Hx]). rewrite E in Y. now apply in_canon in Y.
      - assert (Y : In x (canon c')) by (apply in_canon; split; [exact (found_lt H' Hx)|exact Hx]). rewrite <- E in Y. now apply in_canon in Y. }
    apply in_found in H as (i & d & -> & Hi & H), H' as (j & d' & -> & Hj & H').
    assert (i = j) as <-.
    { destruct (root_min Hi H (proj2 (X j) (or_introl eq_refl)) (proj1 (HL j) Hj)) as [|A]; auto.
      destruct (root_min Hj H' (proj1 (X i) (or_introl eq_refl)) (proj1 (HL i) Hi)) as [|B]; auto. lia. }
    f_equal. apply in_gi in H as (_ & ND & _ & _ & S1 & _); auto; [|now apply HL]. apply in_gi in H' as (_ & ND' & _ & _ & S2 & _); auto; [|now apply HL].
    apply NoDup_cons_iff in ND as [ND _], ND' as [ND' _]. apply (@sorted_unique rank); auto. intros x. split; intros Hx.
    - destruct (proj1 (X x) (or_intror Hx)) as [->|]; auto. contradiction.
    - destruct (proj2 (X x) (or_intror Hx)) as [->|]; auto. contradiction.
  Qed.
  Definition hit (c : list nat) : bool := forallb alive c && existsb active c.
  Lemma found_clique c : In c found -> In (canon c) (filter hit (cliques n outn K)).
  Proof.
    intros Hc. pose proof (fun x => @found_lt c x Hc) as Hlt. apply in_found in Hc as (i & d & -> & Hi & H). pose proof (HLn Hi) as Hin. pose proof (proj1 (HL i) Hi) as Hact.
    apply in_gi in H as (A & ND & B & F & _ & V); auto.
    assert (Hadj : forall x y, In x (i :: d) -> In y (i :: d) -> x <> y -> In y (outn x)).
    { intros x y [<-|Hx] [<-|Hy] Hne; [congruence|now apply B| |].
      - apply (HG Hin). now apply B.
      - destruct (fop_pair F Hx Hy Hne) as [X|X]; apply in_dgi in X as (_ & _ & _ & X); apply in_filtered in X as [X _]; auto. apply (HG (Hlt y (or_intror Hy))). auto. }
    apply filter_In. split.
    - unfold cliques. apply filter_In. split.
      + apply subsets_iff; [apply seq_inc|]. split; [|split; [apply ssort_filter, seq_inc|intros v Hv; apply in_canon in Hv as [Hv _]; apply in_seq; lia]].
        transitivity (length (i :: d)); [|simpl; lia]. apply Permutation_length. apply NoDup_Permutation; auto; [apply NoDup_filter, seq_NoDup|].
        intros x. rewrite in_canon. split; [tauto|]. auto.
      + apply clique_iff. intros u v Hu Hv Hne. apply in_canon in Hu as [_ Hu], Hv as [_ Hv]. auto.
    - apply Bool.andb_true_iff. split.
      + apply forallb_forall. intros x Hx. apply in_canon in Hx as [_ [<-|Hx]]; [now apply active_alive|]. apply V, ign_iff in Hx. tauto.
      + apply existsb_exists. exists i. split; auto. apply in_canon. split; auto. now left.
  Qed.
  Lemma clique_found s : In s (filter hit (cliques n outn K)) -> exists c, In c found /\ canon c = s.
  Proof.
    intros H. apply filter_In in H as [Hs Hh]. apply Bool.andb_true_iff in Hh as [Hal Hac]. rewrite forallb_forall in Hal.
    destruct (min_by rank Hac) as (i & Hi & Hia & Hmin).
    destruct (@clique_chain n outn rank HR K (fun v => v) (fun u Hu => Hu) (fun u v _ _ E => E) (filtered outn K rank)
      (fun u v Hu Hv => ltac:(rewrite in_filtered; tauto)) s Hs) as (c & Hc & Ec).
    apply filter_In in Hs as [Hs1 Hs2]. apply subsets_iff in Hs1 as (HLen & HI & HS); [|apply seq_inc]. rewrite clique_iff in Hs2.
    assert (Hcs : forall x, In x c <-> In x s).
    { intros x. rewrite <- Ec. rewrite CQCliques.in_canon. split; [|tauto]. intros X. split; auto. apply chains_iff in Hc as (_ & X' & _). apply X', in_seq in X. lia. }
    pose proof (proj1 (@chains_iff (filtered outn K rank) K (seq 0 n) c) Hc) as (A & B & C).
    assert (ND : NoDup c). { eapply (@chain_in (filtered outn K rank) rank); [|exact Hc]. intros v w Hw. apply in_filtered in Hw. tauto. }
    assert (Hic : In i c) by now apply Hcs. set (d := filter (fun x => negb (x =? i)) c).
    assert (Hd : forall x, In x d <-> In x c /\ x <> i) by (intros x; unfold d; rewrite filter_In, Bool.negb_true_iff, Nat.eqb_neq; tauto).
    assert (HiL : In i L) by now apply HL.
    assert (Hign : forall x y, In x c -> In y c -> rank x < rank y -> ign x y = true).
    { intros x y Hx Hy Hr. apply ign_iff. repeat split; auto; apply Hal, Hcs; auto. }
    assert (Higi : forall x, In x c -> x <> i -> ign i x = true).
    { intros x Hx Hne. apply ign_iff. split; [now apply active_alive|]. split; [apply Hal, Hcs; auto|]. intros Hax. assert (rank i <= rank x) by (apply Hmin; auto; now apply Hcs).
      assert (rank i <> rank x); [|lia]. intros E. apply Hne. symmetry. destruct HR as [_ HR2]. apply HR2; [apply HS, in_seq in Hi; lia|apply Hcs, HS, in_seq in Hx; lia|exact E]. }
    assert (Pd : Permutation c (i :: d)).
    { apply NoDup_Permutation; auto; [constructor; [rewrite Hd; tauto|apply NoDup_filter; auto]|]. intros x. cbn [In]. rewrite Hd. destruct (Nat.eq_dec i x) as [->|]; intuition. }
    exists (i :: d). split.
    - apply in_found. exists i, d. split; auto. split; auto. unfold gi. apply chains_iff. split; [apply Permutation_length in Pd; simpl in Pd; lia|]. split.
      + intros x Hx. apply Hd in Hx as [Hx Hne]. apply Hs2; auto. now apply Hcs.
      + apply fop_impl with (R := fun v w => In w (filtered outn K rank v)); [|apply fop_filter; exact C]. intros v w Hv Hw Hvw. apply Hd in Hv as [Hv Hvi], Hw as [Hw Hwi]. apply in_dgi.
        split; [auto|]. split; [apply Hign; auto; apply in_filtered in Hvw; tauto|]. split; auto.
    - apply inc_unique; auto; [apply ssort_filter, seq_inc|]. intros x. rewrite in_canon, <- Hcs. split.
      + intros [_ X]. now apply (Permutation_in _ (Permutation_sym Pd)).
      + intros X. split; [apply Hcs, HS, in_seq in X; lia|]. now apply (Permutation_in _ Pd).
  Qed.
  Theorem found_cliques : Permutation (map canon found) (filter hit (cliques n outn K)).
  Proof.
    apply NoDup_Permutation.
    - apply NoDup_map_in; [|apply found_nodup]. intros a b Ha Hb. now apply canon_inj.
    - apply NoDup_filter, NoDup_filter, subsets_nodup, seq_inc.
    - intros s. rewrite in_map_iff. split; [intros (c & <- & Hc); now apply found_clique|]. intros H. apply clique_found in H as (c & Hc & E). exists c. auto.
  Qed.
  Lemma found_occs u : u < n -> occs id_ u found = length (filter (fun s => has s u && hit s) (cliques n outn K)).
  Proof.
    intros Hu. transitivity (length (filter (fun s => has s u) (map canon found))).
    - assert (HF : forall c, In c found -> NoDup c).
      { intros c Hc. apply in_found in Hc as (i & d & -> & Hi & H). apply in_gi in H as (_ & H & _); [exact H|now apply HLn|now apply HL]. }
      induction found as [|c l IH]; auto. unfold occs. cbn [map list_sum fold_right filter]. fold (list_sum (map (fun c => occ u (map (fun x => x) c)) l)). fold (occs id_ u l).
      rewrite IH by (intros; apply HF; now right). rewrite map_id, occ_in by (apply HF; now left).
      assert (E : has (canon c) u = has c u); [|rewrite E; destruct (has c u); reflexivity]. destruct (has c u) eqn:X.
      + apply has_In, in_canon. apply has_In in X. auto.
      + apply has_false. intros Y. apply in_canon in Y as [_ Y]. apply has_false in X. auto.
    - rewrite (Permutation_length (perm_filter (fun s => has s u) found_cliques)). generalize (cliques n outn K) as T. induction T as [|x T IH]; auto. cbn [filter].
      destruct (hit x) eqn:E; cbn [filter]; rewrite ?E, ?Bool.andb_true_r, ?Bool.andb_false_r; [|exact IH]. destruct (has x u); cbn [length]; now rewrite ?IH.
  Qed.
  Lemma at_split u : length (filter (fun s => has s u && hit s) (cliques n outn K)) + cliques_at n outn K remaining u = cliques_at n outn K alive u.
  Proof.
    unfold cliques_at. induction (cliques n outn K) as [|s T IH]; auto. cbn [filter]. destruct (has s u); cbn [andb]; [|exact IH]. unfold hit in IH |- *.
    assert (E : forallb remaining s = forallb alive s && negb (existsb active s)).
    { clear IH. induction s as [|x s IHs]; auto. cbn [forallb existsb]. rewrite IHs. unfold remaining, alive, active. destruct (Hst x) as [E0|[E0|E0]]; rewrite E0; cbn; auto.
      now rewrite Bool.andb_false_r. }
    rewrite E. destruct (forallb alive s), (existsb active s); cbn [andb negb length]; lia.
  Qed.
  Lemma gi_total u cl : (forall u, total cl u = occs id_ u (flat_map gi L)) -> u < n ->
    (active u = false -> total cl u + cliques_at n outn K remaining u = cliques_at n outn K alive u) /\ total cl u <= cliques_at n outn K alive u.
  Proof.
    intros H Hu. rewrite H. pose proof (found_occs Hu) as E. pose proof (at_split u) as E2. unfold found in E. rewrite occs_flat in E |- *.
    assert (X : list_sum (map (fun x => occs id_ u (gi x)) L) <= list_sum (map (fun x => occs id_ u (map (cons x) (gi x))) L)).
    { clear. induction L as [|a l IH]; auto. cbn [map list_sum fold_right]. rewrite occs_cons. unfold list_sum in IH. lia. }
    split; [|lia]. intros Ha. assert (Y : list_sum (map (fun x => occs id_ u (gi x)) L) = list_sum (map (fun x => occs id_ u (map (cons x) (gi x))) L)); [|lia].
    f_equal. apply map_ext_in. intros x Hx. rewrite occs_cons. destruct (Nat.eqb_spec x u) as [->|]; auto. apply HL in Hx. congruence.
  Qed.
  Lemma calls_total cl : calls_of half outn K rank label st L cl -> forall u, total cl u = occs id_ u (flat_map gi L).
  Proof.
    unfold calls_of. destruct (Nat.eqb_spec K 3) as [E|E].
    - intros Hp u. transitivity (total (flat_map (tri_root outn K rank st) L) u).
      + unfold total. apply sum_perm. apply Permutation_map. now apply perm_filter.
      + rewrite total_flat, occs_flat. f_equal. apply map_ext_in. intros i Hi. apply tri_total; auto.
    - intros (ws & Hp & ->) u. destruct (@workers_ok nat (clique_root half outn K rank label st) gi ws) as [_ H].
      + intros x Hx. apply root_ok; [lia|]. apply HLn. eapply Permutation_in; eauto.
      + rewrite H. apply occs_perm. now apply flat_perm.
  Qed.
  Lemma serial_total u : total (serial_calls half outn K rank label st L) u = occs id_ u (flat_map gi L).
  Proof.
    unfold serial_calls. destruct (Nat.eqb_spec K 3) as [E|E].
    - rewrite total_flat, occs_flat. f_equal. apply map_ext_in. intros i Hi. apply tri_total; auto.
    - destruct (@worker_ok nat (clique_root half outn K rank label st) gi L) as [_ H]; [|apply H]. intros x Hx. apply root_ok; [lia|]. now apply HLn.
  Qed.
End Count.
