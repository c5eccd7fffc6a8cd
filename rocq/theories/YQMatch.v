(* Proofs about the matching queries. *)
From Coq Require Import Permutation Sorted.
From Verif Require Import Base ListUtil YQModel YQSpec YQProofs YQFinal.
Unset Strict Implicit.

Section Order.
  Variable hash : nat * nat -> nat.
  Notation epri e := (get_edge_pri hash (fst e) (snd e)).
  Definition elt : nat * nat -> nat * nat -> bool := lex (fun e => epri e) pair_ltb.
  Lemma pair_ltb_true e f : pair_ltb e f = true <-> fst e < fst f \/ fst e = fst f /\ snd e < snd f.
  Proof.
    unfold pair_ltb. destruct (Nat.ltb_spec (fst e) (fst f)); simpl; [split; auto|].
    destruct (Nat.eqb_spec (fst e) (fst f)); simpl; [rewrite Nat.ltb_lt; lia|split; [discriminate|lia]].
  Qed.
  Lemma pair_ltb_false e f : pair_ltb e f = false <-> fst f < fst e \/ fst f = fst e /\ snd f <= snd e.
  Proof.
    destruct (pair_ltb e f) eqn:E.
    - apply pair_ltb_true in E. split; [discriminate|lia].
    - split; auto. intros _. destruct (Nat.lt_trichotomy (fst e) (fst f)) as [H|[H|H]]; auto.
      + rewrite (proj2 (pair_ltb_true e f)) in E; [discriminate|auto].
      + destruct (Nat.le_gt_cases (snd f) (snd e)); [right; auto|]. rewrite (proj2 (pair_ltb_true e f)) in E; [discriminate|auto].
  Qed.
  Lemma pair_cotrans x y z : pair_ltb y x = false -> pair_ltb z y = false -> pair_ltb z x = false.
  Proof. rewrite !pair_ltb_false. lia. Qed.
  Lemma elt_cotrans x y z : elt y x = false -> elt z y = false -> elt z x = false.
  Proof. apply lex_cotrans, pair_cotrans. Qed.
  Lemma elt_irrefl x : elt x x = false.
  Proof. apply lex_irrefl. intros y. apply pair_ltb_false. lia. Qed.
  Lemma elt_asym x y : elt x y = true -> elt y x = false.
  Proof.
    intros H. destruct (elt y x) eqn:E; auto. rewrite <- (elt_irrefl x). symmetry.
    eapply lex_trans; [|exact H|exact E]. intros a b c. rewrite !pair_ltb_true. lia.
  Qed.
  Lemma pri_ordered u v : get_edge_pri hash (fst (ordered u v)) (snd (ordered u v)) = get_edge_pri hash u v.
  Proof. unfold get_edge_pri, ordered. simpl. do 2 f_equal; lia. Qed.
  Lemma comp_elt i l r : edge_comp hash i l r = elt (ordered i l) (ordered i r).
  Proof.
    unfold edge_comp, elt, lex. rewrite !pri_ordered. destruct (_ <? _); auto. destruct (_ <? _); auto.
    destruct (Nat.ltb_spec l r); symmetry.
    - apply pair_ltb_true. unfold ordered. simpl. lia.
    - apply pair_ltb_false. unfold ordered. simpl. lia.
  Qed.
  Lemma pair_eqb_true e f : pair_eqb e f = true <-> e = f.
  Proof. unfold pair_eqb. rewrite andb_true_iff, !Nat.eqb_eq. destruct e, f; simpl. split; [intros [-> ->]; auto|intros E; injection E; auto]. Qed.
  Lemma it_lt_valid a b : fst a < snd a -> fst b < snd b -> it_lt hash a b = Some (if elt a b then a else b).
  Proof.
    intros Ha Hb. unfold it_lt. rewrite (proj2 (Nat.ltb_lt _ _) Ha), (proj2 (Nat.ltb_lt _ _) Hb). simpl. f_equal. unfold elt, lex.
    destruct (_ <? _); auto. destruct (_ <? _); auto.
  Qed.
  Lemma elt_before e f : fst e < snd e -> fst f < snd f -> (elt e f = true <-> edge_before hash e f).
  Proof.
    intros He Hf. unfold elt. rewrite lex_true, pair_ltb_true. unfold get_edge_pri, edge_before.
    rewrite !Nat.min_l, !Nat.max_r by lia. rewrite <- !surjective_pairing. reflexivity.
  Qed.
  Lemma elt_total e f : e <> f -> elt e f = true \/ elt f e = true.
  Proof.
    intros Hn. destruct (elt e f) eqn:E1; auto. destruct (elt f e) eqn:E2; auto. exfalso. apply Hn.
    unfold elt, lex in *. destruct (Nat.ltb_spec (epri e) (epri f)); [discriminate|]. destruct (Nat.ltb_spec (epri f) (epri e)); [discriminate|].
    apply pair_ltb_false in E1, E2. destruct e, f; simpl in *. f_equal; lia.
  Qed.

  (* -- the iterator ------------------------------------------------------------------------------ *)
  Fixpoint mrg (k u v : nat) (la lb : list nat) : list (nat * nat) :=
    match k with
    | 0 => []
    | S k => match get_next hash u v la lb with Some (e, (la, lb)) => e :: mrg k u v la lb | None => [] end
    end.
  Notation esorted := (StronglySorted (fun a b => elt b a = false)).
  Lemma mrg_spec u v k : forall la lb, k = length la + length lb -> ~ In u la -> ~ In v lb ->
    esorted (map (ordered u) la) -> esorted (map (ordered v) lb) ->
    Permutation (mrg k u v la lb) (map (ordered u) la ++ map (ordered v) lb) /\ esorted (mrg k u v la lb).
  Proof.
    induction k as [|k IH]; intros la lb Hk Hu Hv Sa Sb.
    - destruct la, lb; try discriminate. simpl. split; auto; constructor.
    - simpl. destruct la as [|a la], lb as [|b lb]; [discriminate| | |].
      + simpl in *. apply StronglySorted_inv in Sb. destruct Sb as [Sb Fb].
        destruct (IH [] lb) as [Hp Hs]; auto; try (simpl; lia). simpl in Hp. split; [now constructor|]. constructor; auto.
        rewrite Forall_forall in *. intros z Hz. apply Fb. eapply Permutation_in; eauto.
      + simpl in *. apply StronglySorted_inv in Sa. destruct Sa as [Sa Fa].
        destruct (IH la []) as [Hp Hs]; auto; try (simpl; lia). split; [now constructor|]. constructor; auto.
        rewrite Forall_forall in *. intros z Hz. apply Fa. rewrite <- (app_nil_r (map _ la)). eapply Permutation_in; eauto.
      + assert (Sa' := Sa). assert (Sb' := Sb). simpl in Sa, Sb. apply StronglySorted_inv in Sa, Sb. destruct Sa as [Sa Fa], Sb as [Sb Fb].
        rewrite Forall_forall in Fa, Fb.
        assert (Va : fst (ordered u a) < snd (ordered u a)). { unfold ordered; simpl. assert (u <> a) by (intros ->; apply Hu; now left). lia. }
        assert (Vb : fst (ordered v b) < snd (ordered v b)). { unfold ordered; simpl. assert (v <> b) by (intros ->; apply Hv; now left). lia. }
        unfold get_next. rewrite it_lt_valid by auto.
        assert (Hu' : ~ In u la) by (intros H; apply Hu; now right). assert (Hv' : ~ In v lb) by (intros H; apply Hv; now right).
        destruct (elt (ordered u a) (ordered v b)) eqn:E.
        * rewrite (proj2 (pair_eqb_true _ _) eq_refl). destruct (IH la (b :: lb)) as [Hp Hs]; auto; try (simpl in *; lia).
          split; [simpl; now constructor|]. constructor; auto. rewrite Forall_forall. intros z Hz. eapply Permutation_in in Hz; [|exact Hp].
          apply in_app_iff in Hz. destruct Hz as [Hz|[<-|Hz]]; auto; [now apply elt_asym|].
          eapply elt_cotrans; [apply elt_asym; exact E|]. auto.
        * destruct (pair_eqb (ordered v b) (ordered u a)) eqn:Ee.
          -- apply pair_eqb_true in Ee. destruct (IH la (b :: lb)) as [Hp Hs]; auto; try (simpl in *; lia). rewrite Ee.
             split; [simpl; now constructor|]. constructor; auto. rewrite Forall_forall. intros z Hz. eapply Permutation_in in Hz; [|exact Hp].
             apply in_app_iff in Hz. destruct Hz as [Hz|[<-|Hz]]; auto; [rewrite Ee; apply elt_irrefl|].
             rewrite <- Ee. auto.
          -- destruct (IH (a :: la) lb) as [Hp Hs]; auto; try (simpl in *; lia). split.
             { simpl map. rewrite Hp. apply Permutation_middle with (l1 := ordered u a :: map (ordered u) la). }
             constructor; auto. rewrite Forall_forall. intros z Hz. eapply Permutation_in in Hz; [|exact Hp].
             apply in_app_iff in Hz. destruct Hz as [[<-|Hz]|Hz]; auto. eapply elt_cotrans; [exact E|]. auto.
  Qed.

  (* -- mm_query ---------------------------------------------------------------------------------- *)
  Variable n : nat.
  Variable nghs : nat -> list nat.
  Definition madj (e : nat * nat) : list (nat * nat) :=
    mrg (length (nghs (fst e)) + length (nghs (snd e))) (fst e) (snd e) (nghs (fst e)) (nghs (snd e)).
  Hypothesis sym : forall x y, x < n -> In y (nghs x) -> y < n /\ In x (nghs y).
  Hypothesis noloop : forall x, x < n -> ~ In x (nghs x).
  Hypothesis sortedn : forall x, x < n -> sorted_by (edge_comp hash x) (nghs x).
  Definition edom (e : nat * nat) : Prop := is_edge n nghs e.
  Lemma sorted_map x : x < n -> esorted (map (ordered x) (nghs x)).
  Proof.
    intros Hx. pose proof (sortedn Hx) as Hs. unfold sorted_by in Hs. induction Hs as [|a l Hs IH Hf]; simpl; constructor; auto.
    rewrite Forall_forall in *. intros z Hz. apply in_map_iff in Hz. destruct Hz as (y & <- & Hy). rewrite <- comp_elt. auto.
  Qed.
  Lemma ordered_edge x y : x < n -> In y (nghs x) -> edom (ordered x y).
  Proof.
    intros Hx Hin. destruct (sym Hx Hin) as [Hy Hin']. assert (x <> y) by (intros ->; eapply noloop; eauto).
    unfold edom, is_edge, ordered. simpl. split; [lia|]. split; [lia|].
    destruct (Nat.lt_ge_cases x y); [rewrite Nat.min_l, Nat.max_r by lia; auto|rewrite Nat.min_r, Nat.max_l by lia; auto].
  Qed.
  Lemma madj_spec e : edom e -> Permutation (madj e) (map (ordered (fst e)) (nghs (fst e)) ++ map (ordered (snd e)) (nghs (snd e))) /\ esorted (madj e).
  Proof. intros (H1 & H2 & H3). apply mrg_spec; auto; try (apply noloop; lia); apply sorted_map; lia. Qed.
  Lemma madj_in e f : edom e -> (In f (madj e) <-> edom f /\ touch f e).
  Proof.
    intros He. destruct (madj_spec He) as [Hp _]. destruct He as (H1 & H2 & H3). destruct e as [u v]; simpl in *. split.
    - intros Hin. eapply Permutation_in in Hin; [|exact Hp]. apply in_app_iff in Hin. rewrite !in_map_iff in Hin.
      destruct Hin as [(y & <- & Hy)|(y & <- & Hy)]; (split; [apply ordered_edge; auto; lia|]); unfold touch, ordered; simpl; lia.
    - intros [(A & B & C) Ht]. eapply Permutation_in; [symmetry; exact Hp|]. apply in_app_iff. rewrite !in_map_iff.
      destruct f as [a b]; simpl in *. unfold touch in Ht; simpl in Ht. destruct (@sym a b ltac:(lia) C) as [_ C'].
      assert (Ea : ordered a b = (a, b)) by (unfold ordered; f_equal; lia). assert (Eb : ordered b a = (a, b)) by (unfold ordered; f_equal; lia).
      destruct Ht as [E|[E|[E|E]]]; rewrite <- E.
      + left. exists b; auto.
      + right. exists b; auto.
      + left. exists a; auto.
      + right. exists a; auto.
  Qed.
  Lemma mrg_length u v k : forall la lb, k = length la + length lb -> ~ In u la -> ~ In v lb -> length (mrg k u v la lb) = k.
  Proof.
    induction k as [|k IH]; intros la lb Hk Hu Hv; auto. simpl. destruct la as [|a la], lb as [|b lb]; [discriminate| | |]; simpl in *.
    - rewrite IH; auto; simpl; lia.
    - rewrite IH; auto; simpl; lia.
    - rewrite it_lt_valid by (unfold ordered; simpl; lia). destruct (pair_eqb _ _); simpl; rewrite IH; simpl; auto; lia.
  Qed.
  Lemma mm_gq c d : forall u v w, edom (u, v) -> mm_query hash nghs c d u v w = gq madj elt c d (u, v) w.
  Proof.
    induction d as [|d IH]; intros u v w He; [reflexivity|]. cbn [mm_query gq].
    assert (Huv : u < v) by apply He. rewrite (proj2 (Nat.ltb_lt _ _) Huv).
    match goal with |- ?F _ _ _ w 0 = _ => set (loop := F) end. unfold madj at 2. cbn [fst snd].
    assert (Hd : forall f, In f (madj (u, v)) -> edom f) by (intros f Hf; now apply madj_in in Hf).
    destruct (madj_spec He) as [_ Hs]. unfold madj in Hd, Hs. cbn [fst snd] in Hd, Hs.
    assert (Hlen : length (mrg (length (nghs u) + length (nghs v)) u v (nghs u) (nghs v)) = length (nghs u) + length (nghs v)).
    { destruct He as (H1 & H2 & _). simpl in H1, H2. apply mrg_length; auto; apply noloop; lia. }
    assert (Hlast : forall f, In f (mrg (length (nghs u) + length (nghs v)) u v (nghs u) (nghs v)) -> 0 <= epri f) by (intros; lia).
    revert Hd Hs Hlen Hlast. generalize (length (nghs u) + length (nghs v)) as k, (nghs u) as la, (nghs v) as lb.
    enough (L : forall k la lb w last, (forall f, In f (mrg k u v la lb) -> edom f) -> esorted (mrg k u v la lb) -> length (mrg k u v la lb) = k ->
      (forall f, In f (mrg k u v la lb) -> last <= epri f) -> loop k la lb w last = gloop elt c (gq madj elt c d) (u, v) (mrg k u v la lb) w) by auto.
    clear w. induction k as [|k IHk]; intros la lb w last Hd Hs Hlen Hlast; [reflexivity|]. unfold loop; fold loop.
    cbn [mrg] in *. destruct (get_next hash u v la lb) as [[e [la' lb']]|]; [|discriminate]. cbn [gloop].
    destruct (w =? c); [reflexivity|]. cbv zeta. pose proof (Hlast e (or_introl eq_refl)) as Hle. destruct (Nat.ltb_spec (epri e) last); [lia|].
    apply StronglySorted_inv in Hs. destruct Hs as [Hs Hf]. rewrite Forall_forall in Hf. injection Hlen as Hlen.
    assert (Et : elt e (u, v) = negb ((get_edge_pri hash u v <? epri e) || (get_edge_pri hash u v =? epri e) && (pair_eqb e (u, v) || pair_ltb (u, v) e))).
    { unfold elt, lex. cbn [fst snd]. destruct (Nat.ltb_spec (get_edge_pri hash u v) (epri e)), (Nat.ltb_spec (epri e) (get_edge_pri hash u v)), (Nat.eqb_spec (get_edge_pri hash u v) (epri e)); simpl; try lia; try reflexivity.
      destruct (pair_eqb e (u, v)) eqn:E1.
      - apply pair_eqb_true in E1. subst e. simpl. apply pair_ltb_false. lia.
      - simpl. destruct (pair_ltb (u, v) e) eqn:E2; simpl.
        + apply pair_ltb_true in E2. apply pair_ltb_false. simpl in *. lia.
        + apply pair_ltb_false in E2. apply pair_ltb_true. simpl in *. assert (e <> (u, v)) by (intros ->; rewrite (proj2 (pair_eqb_true _ _) eq_refl) in E1; discriminate).
          destruct e as [a b]; simpl in *. destruct E2 as [?|[-> ?]]; [auto|]. right. split; auto. assert (b <> v) by congruence. lia. }
    rewrite Et. destruct (get_edge_pri hash u v <? epri e); simpl; [reflexivity|]. destruct (_ && _); simpl; [reflexivity|].
    assert (He' : edom e) by (apply Hd; now left). rewrite IH by (destruct e; exact He'). rewrite <- surjective_pairing.
    destruct (gq madj elt c d e (w + 1)) as [[| |] w'| |]; try reflexivity. apply IHk; auto.
    - intros f Hin. apply Hd. now right.
    - intros f Hin. specialize (Hf f Hin). unfold elt, lex in Hf. destruct (Nat.ltb_spec (epri f) (epri e)); [discriminate|lia].
  Qed.

  Lemma mm_queries : exists M full, first_matching n nghs (edge_before hash) M /\
    forall c depth e, n * n <= depth -> is_edge n nghs e -> mm_query hash nghs c depth (fst e) (snd e) 0 =
      if full e <=? c then Ret (if M e then In_ else Out_) (full e) else Ret Unknown c.
  Proof.
    set (all := list_prod (seq 0 n) (seq 0 n)). set (rank := fun e => length (filter (fun f => elt f e) all)).
    assert (inall : forall e, edom e -> In e all).
    { intros [a b] (A & B & _). simpl in *. apply in_prod; apply in_seq; lia. }
    assert (closed : forall x y, edom x -> In y (madj x) -> edom y) by (intros x y Hx Hy; now apply madj_in in Hy).
    assert (ranked : forall x y, edom x -> edom y -> elt y x = true -> rank y < rank x).
    { intros x y Hx Hy E. apply filter_lt with (x := y); auto; [|apply elt_irrefl]. intros z _ Hz. eapply lex_trans; [|exact Hz|exact E].
      intros a b c. rewrite !pair_ltb_true. lia. }
    assert (bound : forall x, edom x -> rank x < n * n).
    { intros x Hx. apply Nat.lt_le_trans with (length (filter (fun _ => true) all)).
      - apply filter_lt with (x := x); auto. apply elt_irrefl.
      - rewrite filter_all by auto. unfold all. now rewrite prod_length, !seq_length. }
    exists (ans madj elt (n * n)), (full madj elt (n * n)). split.
    - intros e He. rewrite (ans_greedy closed ranked elt_cotrans (fun x Hx => proj2 (madj_spec Hx)) bound He). split.
      + intros H f Hf Ht Hb. apply H; [now apply madj_in|]. apply elt_before; auto; [apply Hf|apply He].
      + intros H f Hf Hb. apply madj_in in Hf; auto. destruct Hf as [Hf Ht]. apply H; auto. apply elt_before; auto; [apply Hf|apply He].
    - intros c depth e Hd He. rewrite mm_gq by (destruct e; exact He). rewrite <- surjective_pairing. rewrite (gq_ans c closed ranked bound He Hd). reflexivity.
  Qed.
End Order.

Lemma first_matching_maximal hash n outn M : first_matching n outn (edge_before hash) M -> maximal_matching_set n outn M.
Proof.
  intros HM.
  assert (tot : forall e f, e <> f -> edge_before hash e f \/ edge_before hash f e).
  { intros [a b] [c d] H. unfold edge_before; simpl. destruct (Nat.lt_trichotomy (hash (a, b)) (hash (c, d))) as [?|[?|?]]; auto.
    assert (a <> c \/ b <> d) by (destruct (Nat.eq_dec a c), (Nat.eq_dec b d); auto; exfalso; apply H; congruence). lia. }
  assert (tsym : forall e f, touch e f -> touch f e) by (unfold touch; intros; lia).
  split.
  - intros e f He Hf Me Mf Ht. destruct (Nat.eq_dec (fst e) (fst f)) as [E1|E1]; [destruct (Nat.eq_dec (snd e) (snd f)) as [E2|E2]|].
    + destruct e, f; simpl in *; congruence.
    + exfalso. destruct (tot e f) as [Hb|Hb]; [congruence| |].
      * rewrite (proj1 (HM f Hf) Mf e) in Me; auto. discriminate.
      * rewrite (proj1 (HM e He) Me f) in Mf; auto. discriminate.
    + exfalso. destruct (tot e f) as [Hb|Hb]; [congruence| |].
      * rewrite (proj1 (HM f Hf) Mf e) in Me; auto. discriminate.
      * rewrite (proj1 (HM e He) Me f) in Mf; auto. discriminate.
  - intros e He. destruct (M e) eqn:Me; [exists e; repeat split; try apply He; auto; now left|].
    set (all := list_prod (seq 0 n) (seq 0 n)).
    set (t := fun f : nat * nat => (fst f <? snd f) && (snd f <? n) && existsb (Nat.eqb (snd f)) (outn (fst f)) && M f &&
      ((fst f =? fst e) || (fst f =? snd e) || (snd f =? fst e) || (snd f =? snd e))).
    assert (Ht : forall f, t f = true <-> is_edge n outn f /\ M f = true /\ touch f e).
    { intros f. unfold t, is_edge, touch. rewrite !andb_true_iff, !orb_true_iff, !Nat.eqb_eq, !Nat.ltb_lt, existsb_exists. split.
      - intros [[[[A B] (x & C & C')] D] F]. apply Nat.eqb_eq in C'. subst x. tauto.
      - intros [(A & B & C) [D F]]. repeat split; auto; [exists (snd f); split; auto; apply Nat.eqb_refl|tauto]. }
    destruct (existsb t all) eqn:E; [apply existsb_exists in E; destruct E as (f & _ & E); apply Ht in E; eauto|].
    exfalso. assert (M e = true); [|congruence]. apply HM; auto. intros f Hf Hte _. destruct (M f) eqn:Mf; auto.
    assert (existsb t all = true); [|congruence]. apply existsb_exists. exists f. split; [|now apply Ht].
    destruct f as [a b], Hf as (A & B & _). simpl in *. apply in_prod; apply in_seq; lia.
Qed.

Lemma flat_map_perm {A B} (f g : A -> list B) l : (forall x, In x l -> Permutation (f x) (g x)) -> Permutation (flat_map f l) (flat_map g l).
Proof. induction l as [|x l IH]; intros H; simpl; auto. apply Permutation_app; [apply H; now left|apply IH; intros; apply H; now right]. Qed.
Lemma upper_perm n f g : (forall v, v < n -> Permutation (f v) (g v)) -> Permutation (upper_edges n f) (upper_edges n g).
Proof. intros H. apply flat_map_perm. intros u Hu. apply in_seq in Hu. apply Permutation_map, filter_perm, H. lia. Qed.
Lemma upper_in n f e : In e (upper_edges n f) <-> fst e < snd e /\ fst e < n /\ In (snd e) (f (fst e)).
Proof.
  unfold upper_edges. rewrite in_flat_map. split.
  - intros (u & Hu & He). apply in_seq in Hu. apply in_map_iff in He. destruct He as (v & <- & Hv). apply filter_In in Hv.
    rewrite Nat.ltb_lt in Hv. simpl. intuition lia.
  - intros (A & B & C). exists (fst e). split; [apply in_seq; lia|]. apply in_map_iff. exists (snd e). split; [now destruct e|].
    apply filter_In. now rewrite Nat.ltb_lt.
Qed.
Lemma upper_nodup n f : (forall v, v < n -> NoDup (f v)) -> NoDup (upper_edges n f).
Proof.
  unfold upper_edges. intros H. assert (Hl : forall v, In v (seq 0 n) -> NoDup (f v)) by (intros v Hv; apply in_seq in Hv; apply H; lia).
  clear H. pose proof (seq_NoDup n 0) as Hn. revert Hl. induction Hn as [|u l Hu Hn IH]; intros Hl; simpl; [constructor|].
  apply NoDup_app_iff. repeat split.
  - apply FinFun.Injective_map_NoDup; [intros a b E; now injection E|]. apply NoDup_filter, Hl. now left.
  - apply IH. intros; apply Hl; now right.
  - intros e H1 H2. apply in_map_iff in H1. destruct H1 as (v & <- & _). apply in_flat_map in H2. destruct H2 as (w & Hw & H2).
    apply in_map_iff in H2. destruct H2 as (x & E & _). injection E as -> _. contradiction.
Qed.
Lemma all_same_length {A} (l : list A) : NoDup l -> (forall x y, In x l -> In y l -> x = y) -> length l <= 1.
Proof.
  intros Hn H. destruct l as [|x [|y l]]; simpl; auto. exfalso. apply NoDup_cons_iff in Hn. destruct Hn as [Hn _]. apply Hn.
  left. apply H; simpl; auto.
Qed.

Lemma mm_run hash n outn edges smax c depth (M : nat * nat -> bool) (full : nat * nat -> nat) f :
  (forall v, v < n -> slice outn edges v = f v) -> (forall v, v < n -> Permutation (f v) (outn v)) ->
  (forall e, is_edge n outn e -> mm_query hash (slice outn edges) c depth (fst e) (snd e) 0 =
      if full e <=? c then Ret (if M e then In_ else Out_) (full e) else Ret Unknown c) ->
  (forall u v, u < n -> In v (outn u) -> v < n /\ In u (outn v)) -> (forall v, v < n -> ~ In v (outn v)) ->
  (forall v, v < n -> NoDup (outn v)) -> maximal_matching_set n outn M ->
  (c < smax \/ forall e, is_edge n outn e -> full e <= c) ->
  exists L, MaximalMatching smax hash n outn edges c depth =
      Some (L, list_max (map (fun e => Nat.min (full e) c) (upper_edges n outn)),
            list_sum (map (fun e => Nat.min (full e) c) (upper_edges n outn)) mod (smax + 1),
            length (filter (fun e => full e <=? c) (upper_edges n outn))) /\
    NoDup L /\ forall e, In e L <-> is_edge n outn e /\ M e = true /\ full e <= c.
Proof.
  intros Hsl Hp Hq Hsym Hself Hnd [HM1 HM2] Hc. unfold MaximalMatching. set (nghs := slice outn edges) in *.
  set (q := fun e : nat * nat => mm_query hash nghs c depth (fst e) (snd e) 0) in *.
  assert (HE : Permutation (upper_edges n nghs) (upper_edges n outn)).
  { apply upper_perm. intros v Hv. rewrite Hsl by auto. auto. }
  assert (Hedge : forall e, In e (upper_edges n outn) <-> is_edge n outn e).
  { intros e. rewrite upper_in. unfold is_edge. split; intros (A & B & C); repeat split; auto; [|lia]. eapply Hsym; eauto. }
  assert (HinE : forall e, In e (upper_edges n nghs) <-> is_edge n outn e).
  { intros e. rewrite <- Hedge. split; apply Permutation_in; [auto|now symmetry]. }
  assert (HndE : NoDup (upper_edges n nghs)).
  { apply (Permutation_NoDup (Permutation_sym HE)), upper_nodup. auto. }
  assert (Hret : forallb (fun e => returned (q e)) (upper_edges n nghs) = true).
  { apply forallb_forall. intros e He. apply HinE in He. unfold q. rewrite Hq by auto. now destruct (full e <=? c). }
  assert (Hin : forall e, is_edge n outn e -> is_in (q e) = M e && (full e <=? c)).
  { intros e He. unfold q. rewrite Hq by auto. destruct (full e <=? c); simpl; [|now rewrite andb_false_r]. now destruct (M e). }
  assert (Hans : forall e, is_edge n outn e -> is_answer (q e) = (full e <=? c)).
  { intros e He. unfold q. rewrite Hq by auto. destruct (full e <=? c); simpl; auto. now destruct (M e). }
  assert (Hw : forall e, is_edge n outn e -> work_of (q e) = Nat.min (full e) c).
  { intros e He. unfold q. rewrite Hq by auto. destruct (Nat.leb_spec (full e) c); simpl; lia. }
  assert (HL : forall e, In e (filter (fun e => is_in (q e)) (upper_edges n nghs)) <-> is_edge n outn e /\ M e = true /\ full e <= c).
  { intros e. rewrite filter_In, HinE. split.
    - intros [He E]. rewrite Hin in E by auto. apply andb_true_iff in E. rewrite Nat.leb_le in E. tauto.
    - intros (He & E). split; auto. rewrite Hin by auto. now rewrite andb_true_iff, Nat.leb_le. }
  assert (HnL : NoDup (filter (fun e => is_in (q e)) (upper_edges n nghs))) by now apply NoDup_filter.
  assert (Hm : Permutation (map (fun e => work_of (q e)) (upper_edges n nghs)) (map (fun e => Nat.min (full e) c) (upper_edges n outn))).
  { transitivity (map (fun e => Nat.min (full e) c) (upper_edges n nghs)); [|now apply Permutation_map].
    rewrite (map_ext_in (fun e => work_of (q e)) (fun e => Nat.min (full e) c)); auto. intros e He. apply Hw, HinE, He. }
  assert (Hf : length (filter (fun e => is_answer (q e)) (upper_edges n nghs)) = length (filter (fun e => full e <=? c) (upper_edges n outn))).
  { rewrite (filter_ext_in (fun e => is_answer (q e)) (fun e => full e <=? c)); [|intros e He; apply Hans, HinE, He].
    now apply Permutation_length, filter_perm. }
  exists (filter (fun e => is_in (q e)) (upper_edges n nghs)). split; [|auto].
  cbv zeta. change (fun e => returned (mm_query hash nghs c depth (fst e) (snd e) 0)) with (fun e => returned (q e)).
  change (fun e => is_in (mm_query hash nghs c depth (fst e) (snd e) 0)) with (fun e => is_in (q e)).
  change (fun e => is_answer (mm_query hash nghs c depth (fst e) (snd e) 0)) with (fun e => is_answer (q e)).
  change (fun e => work_of (mm_query hash nghs c depth (fst e) (snd e) 0)) with (fun e => work_of (q e)).
  rewrite Hret, (list_max_perm Hm), (list_sum_perm Hm), Hf. set (L := filter (fun e => is_in (q e)) (upper_edges n nghs)) in *.
  match goal with |- (if ?b then _ else _) = _ => assert (Hb : b = true); [|rewrite Hb; reflexivity] end.
  apply orb_true_iff. destruct (Nat.eqb_spec c smax) as [->|]; [right|left; auto]. destruct Hc as [Hc|Hc]; [lia|].
  apply andb_true_iff. split; apply forallb_forall; intros u Hu; apply in_seq in Hu.
  - apply Nat.leb_le. rewrite <- app_length. apply all_same_length.
    + apply NoDup_app_iff. repeat split; try now apply NoDup_filter. intros e H1 H2. apply filter_In in H1, H2.
      rewrite Nat.eqb_eq in *. destruct H1 as [H1 E1], H2 as [_ E2]. apply HL in H1. destruct H1 as [(A & _) _]. lia.
    + assert (T : forall x, In x (filter (fun e => fst e =? u) L ++ filter (fun e => snd e =? u) L) -> In x L /\ (fst x = u \/ snd x = u)).
      { intros x Hx. apply in_app_iff in Hx. rewrite !filter_In, !Nat.eqb_eq in Hx. tauto. }
      intros x y Hx Hy. apply T in Hx, Hy. destruct Hx as [Hx Ex], Hy as [Hy Ey]. apply HL in Hx, Hy.
      apply HM1; try tauto. unfold touch. lia.
  - apply forallb_forall. intros v Hv. apply negb_true_iff, andb_false_iff. rewrite !Nat.eqb_neq.
    destruct (Hsym u v ltac:(lia) Hv) as [Hvn Hv']. assert (u <> v) by (intros ->; eapply Hself; eauto; lia).
    assert (He : is_edge n outn (ordered u v)).
    { unfold is_edge, ordered; simpl. split; [lia|]. split; [lia|].
      destruct (Nat.lt_ge_cases u v); [rewrite Nat.min_l, Nat.max_r by lia; auto|rewrite Nat.min_r, Nat.max_l by lia; auto]. }
    destruct (HM2 _ He) as (e & He' & Me & Ht). assert (HeL : In e L) by (apply HL; auto).
    assert (P : forall w, fst e = w \/ snd e = w -> length (filter (fun e => fst e =? w) L) + length (filter (fun e => snd e =? w) L) <> 0).
    { intros w Hw' E. assert (X : filter (fun e => fst e =? w) L = [] /\ filter (fun e => snd e =? w) L = []) by (split; apply length_zero_iff_nil; lia).
      destruct X as [X1 X2]. destruct Hw' as [Ew|Ew].
      - assert (In e (filter (fun e => fst e =? w) L)) by (apply filter_In; rewrite Nat.eqb_eq; auto). rewrite X1 in *. easy.
      - assert (In e (filter (fun e => snd e =? w) L)) by (apply filter_In; rewrite Nat.eqb_eq; auto). rewrite X2 in *. easy. }
    assert (Hor : (fst e = u \/ snd e = u) \/ (fst e = v \/ snd e = v)) by (unfold touch, ordered in Ht; simpl in Ht; lia).
    destruct Hor as [Hor|Hor]; [left|right]; now apply P.
Qed.
