(* Proofs for C64: the outer loop. *)
From Coq Require Import ZArith Permutation.
From Verif Require Import Base ListUtil GBModel SFModel SFSpec SFProofs UFSpec FRSpec FRProofs BOModel BOLight BOJump BORound.
Local Open Scope nat_scope.
Unset Strict Implicit.

Definition flip (e : edge Z) : edge Z := (dst e, src e, wgh e).
Lemma flip_flip e : flip (flip e) = e.
Proof. now destruct e as [[a b] w]. Qed.

Lemma graph_edges_In (G : csr Z) e : In e (graph_edges G) <-> src e < gn G /\ In (dst e, wgh e) (neighbors G (src e)).
Proof.
  unfold graph_edges. rewrite in_flat_map. split.
  - intros (u & Hu & He). apply in_map_iff in He as ([v w] & <- & Hx). apply in_seq in Hu. split; auto. unfold src. simpl. lia.
  - intros [H1 H2]. exists (src e). split; [apply in_seq; lia|]. apply in_map_iff. exists (dst e, wgh e). split; auto. now destruct e as [[a b] w].
Qed.
Lemma edges_where_In q (G : csr Z) e : In e (edges_where q G) <-> In e (graph_edges G) /\ q (src e) (dst e, wgh e) = true.
Proof.
  rewrite graph_edges_In. unfold edges_where. rewrite in_flat_map. split.
  - intros (u & Hu & He). apply in_map_iff in He as ([v w] & <- & Hx). apply in_seq in Hu. apply filter_In in Hx as [H1 H2]. unfold src, dst, wgh. simpl. repeat split; auto; lia.
  - intros [[H1 H2] H3]. exists (src e). split; [apply in_seq; lia|]. apply in_map_iff. exists (dst e, wgh e). split; [now destruct e as [[a b] w]|]. apply filter_In. auto.
Qed.
Lemma degree_length (G : csr Z) : total_degree G = length (graph_edges G).
Proof.
  unfold total_degree, graph_edges. generalize (seq 0 (gn G)). induction l as [|u l IH]; simpl; auto. rewrite app_length, map_length. f_equal. exact IH.
Qed.

Section Graph.
  Variable thr fb : nat.
  Hypothesis Hfb : 0 < fb.
  Lemma filters_ok pred (G : csr Z) es G' : regions_ok G -> (forall v x, pred v x <= 2) -> filters thr fb pred G es G' ->
    regions_ok G' /\ gn G' = gn G /\ gm G' = length (graph_edges G') /\
    (forall e, In e es <-> In e (graph_edges G) /\ pred (src e) (dst e, wgh e) = 2) /\
    (forall e, In e (graph_edges G') <-> In e (graph_edges G) /\ pred (src e) (dst e, wgh e) = 0).
  Proof.
    intros HR Hp (vorder & ord & sh & vshuffle & junk & H1 & H2 & H3 & H4 & H5).
    destruct (@filter_edges_ok Z thr fb Hfb pred vorder ord sh vshuffle junk G HR Hp H1 H2 H3 H4) as (G1 & E & HR' & Hn & Hnb & Hm). rewrite E in H5. injection H5 as <- <-.
    split; auto. split; auto. split; [now rewrite Hm, degree_length|]. split; intros e.
    - rewrite edges_where_In. now rewrite Nat.eqb_eq.
    - rewrite !graph_edges_In, Hn. split.
      + intros [Ha Hb]. rewrite Hnb in Hb; auto. apply filter_In in Hb as [Hb Hc]. apply Nat.eqb_eq in Hc. auto.
      + intros [[Ha Hb] Hc]. split; auto. rewrite Hnb; auto. apply filter_In. split; auto. now apply Nat.eqb_eq.
  Qed.
  Lemma filters_runs pred (G : csr Z) : regions_ok G -> (forall v x, pred v x <= 2) -> exists es G', filters thr fb pred G es G'.
  Proof.
    intros HR Hp. assert (Hid : forall A, reorders (fun l : list A => l)) by (intros A l; apply Permutation_refl).
    assert (Ho : forall v, v < gn G -> good_order fb G v (seq 0 (num_blocks (length (neighbors G v)) fb))) by (intros v Hv; apply Permutation_refl).
    destruct (@filter_edges_ok Z thr fb Hfb pred (seq 0 (gn G)) (fun v => seq 0 (num_blocks (length (neighbors G v)) fb)) (fun _ l => l) (fun l => l) (0, 0, 0%Z) G HR Hp (Permutation_refl _) Ho (fun _ => Hid _) (Hid _)) as (G1 & E & _).
    eexists _, G1. exists (seq 0 (gn G)), (fun v => seq 0 (num_blocks (length (neighbors G v)) fb)), (fun _ l => l), (fun l => l), (0, 0, 0%Z).
    split; [apply Permutation_refl|]. split; [exact Ho|]. split; [intros _; apply Hid|]. split; [apply Hid|exact E].
  Qed.
  Lemma all_ok (G : csr Z) es G' : regions_ok G -> get_all_edges G es G' ->
    regions_ok G' /\ gn G' = gn G /\ (forall e, In e es <-> In e (graph_edges G)) /\ graph_edges G' = [].
  Proof.
    intros HR (vshuffle & junk & H1 & H2).
    destruct (@filter_all_edges_ok Z fb Hfb (fun _ _ => true) vshuffle junk G HR H1) as (G1 & E & HR' & Hn & Hnb & Hm). rewrite E in H2. injection H2 as <- <-.
    split; auto. split; auto. split.
    - intros e. rewrite edges_where_In. tauto.
    - destruct (graph_edges G1) as [|e l] eqn:El; auto. assert (In e (graph_edges G1)) by (rewrite El; now left). apply graph_edges_In in H as [Ha Hb]. rewrite Hnb in Hb; [destruct Hb|congruence].
  Qed.
  Lemma all_runs (G : csr Z) : regions_ok G -> exists es G', get_all_edges G es G'.
  Proof.
    intros HR. assert (Hid : forall A, reorders (fun l : list A => l)) by (intros A l; apply Permutation_refl).
    destruct (@filter_all_edges_ok Z fb Hfb (fun _ _ => true) (fun l => l) (0, 0, 0%Z) G HR (Hid _)) as (G1 & E & _).
    eexists _, G1. exists (fun l => l), (0, 0, 0%Z). split; [apply Hid|exact E].
  Qed.
  Lemma top_pred_le split hb u x : top_pred split hb u x <= 2.
  Proof. unfold top_pred. repeat destruct (_ <? _); try destruct (_ <? _)%Z; try destruct (_ =? _)%Z; try destruct (hb _ _); lia. Qed.

  (* a batch: its edges are not heavier than those left, and what is dropped has its other direction *)
  Record batch (G : csr Z) (es : list (edge Z)) (G' : csr Z) : Prop := {
    ba_reg : regions_ok G'; ba_n : gn G' = gn G;
    ba_es : forall e, In e es -> In e (graph_edges G);
    ba_left : forall e, In e (graph_edges G') -> In e (graph_edges G);
    ba_all : forall e, In e (graph_edges G) -> In e es \/ In e (graph_edges G') \/ dst e < src e;
    ba_low : forall d e, In d es -> In e (graph_edges G') -> (wgh d <= wgh e)%Z;
    ba_src : forall e, In e (graph_edges G') -> src e <= dst e }.
  Lemma get_batch_ok largemem round G es G' : regions_ok G -> get_batch thr fb largemem round G es G' -> batch G es G' /\ (n_filter_steps <= round -> graph_edges G' = []).
  Proof.
    intros HR H. assert (HA : get_all_edges G es G' -> batch G es G' /\ graph_edges G' = []).
    { intros H'. destruct (all_ok HR H') as (A1 & A2 & A3 & A4). split; auto.
      constructor; auto; rewrite ?A4; [intros e; apply A3|intros e []|intros e He; left; now apply A3|intros d e _ []|intros e []]. }
    unfold get_batch in H. destruct (round <? n_filter_steps) eqn:E; [|destruct (HA H); auto]. split; [|apply Nat.ltb_lt in E; lia].
    unfold get_top_k in H. destruct (_ =? _); [apply (HA H)|]. destruct H as (e0 & hb & He0 & H). apply (filters_ok HR (top_pred_le (wgh e0) hb)) in H as (A1 & A2 & A3 & A4 & A5).
    constructor; auto.
    - intros e He. now apply A4 in He.
    - intros e He. now apply A5 in He.
    - intros e He. rewrite A4, A5. destruct (lt_dec (dst e) (src e)) as [Hl|Hl]; auto. unfold top_pred. cbn [fst snd]. replace (dst e <? src e) with false by (symmetry; apply Nat.ltb_ge; lia).
      destruct (_ <? _)%Z; auto. destruct (_ =? _)%Z; auto. destruct (hb _ _); auto.
    - intros d e Hd He. apply A4 in Hd as [_ Hd]. apply A5 in He as [_ He]. unfold top_pred in Hd, He. cbn [fst snd] in *. destruct (_ <? _) in Hd; [discriminate|]. destruct (_ <? _) in He; [discriminate|].
      destruct (Z.ltb_spec (wgh d) (wgh e0)), (Z.ltb_spec (wgh e) (wgh e0)), (Z.eqb_spec (wgh d) (wgh e0)), (Z.eqb_spec (wgh e) (wgh e0)); try discriminate; lia.
    - intros e He. apply A5 in He as [_ He]. unfold top_pred in He. cbn [fst snd] in He. destruct (Nat.ltb_spec (dst e) (src e)); [discriminate|lia].
  Qed.
  Lemma get_batch_runs largemem round G : regions_ok G -> gm G = length (graph_edges G) -> 0 < gm G -> exists es G', get_batch thr fb largemem round G es G'.
  Proof.
    intros HR Hm H. unfold get_batch. destruct (_ <? _); [|now apply all_runs]. unfold get_top_k. destruct (_ =? _); [now apply all_runs|].
    destruct (graph_edges G) as [|e0 l] eqn:E; [simpl in Hm; lia|]. destruct (filters_runs HR (top_pred_le (wgh e0) (fun _ _ => true))) as (es & G' & HF). exists es, G', e0, (fun _ _ => true). split; auto. now left.
  Qed.
End Graph.

Section Outer.
  Variable top : Z.
  Variable thr fb : nat.
  Hypothesis Hfb : 0 < fb.
  Variable E : list (edge Z).
  Variable N : nat.
  Hypothesis HE : forall e, In e E -> src e < N /\ dst e < N /\ (wgh e <= top)%Z.

  (* the edge has its ends connected by tree edges that are not heavier *)
  Definition spanned (T : list (edge Z)) (e : edge Z) : Prop := connected (ends (filter (fun f => (wgh f <=? wgh e)%Z) T)) (src e) (dst e).
  Lemma spanned_flip T e : spanned T (flip e) -> spanned T e.
  Proof. unfold spanned. intros H. apply rst_sym. exact H. Qed.
  Lemma spanned_of T F e : connected (ends F) (src e) (dst e) -> incl F T -> (forall f, In f F -> (wgh f <= wgh e)%Z) -> spanned T e.
  Proof. intros C HF Hw. eapply conn_ends_incl; [|exact C]. intros f Hf. apply filter_In. split; auto. apply Z.leb_le. auto. Qed.

  Record OI (round : nat) (s : mstate) (D : list (edge Z)) : Prop := {
    o_reg : regions_ok (m_G s); o_n : gn (m_G s) = N; o_m : gm (m_G s) = length (graph_edges (m_G s));
    o_R : incl (graph_edges (m_G s)) E;
    o_cross : forall e, In e (graph_edges (m_G s)) -> m_P s (src e) <> m_P s (dst e);
    o_flat : forall x, m_P s (m_P s x) = m_P s x;
    o_big : forall x, N <= x -> m_P s x = x;
    o_nd : NoDup (m_vs s);
    o_vs : forall v, In v (m_vs s) <-> v < N /\ m_P s v = v;
    o_conn : forall x y, m_P s x = m_P s y <-> connected (ends (m_T s)) x y;
    o_forest : forest (m_T s);
    o_TD : incl (m_T s) D;
    o_DE : incl D E;
    o_D : forall d, In d D -> connected (ends (m_T s)) (src d) (dst d);
    o_low : forall d e, In d D -> In e (graph_edges (m_G s)) -> (wgh d <= wgh e)%Z;
    o_cover : forall e, In e E -> spanned (m_T s) e \/ In e (graph_edges (m_G s)) \/ In (flip e) (graph_edges (m_G s));
    o_sym : (forall e, In e (graph_edges (m_G s)) -> In (flip e) (graph_edges (m_G s))) \/ (forall e, In e (graph_edges (m_G s)) -> src e < dst e);
    o_zero : round = 0 -> forall x, m_P s x = x }.

  Lemma conn_lt (T : list (edge Z)) x y : incl T E -> connected (ends T) x y -> x < N <-> y < N.
  Proof. intros HT. apply (@conn_inside T (fun x => x < N)). intros e He. apply HT, HE in He. tauto. Qed.

  Section Round.
    Variable largemem : bool.
    Variable round : nat.
    Variable s : mstate.
    Variable D : list (edge Z).
    Hypothesis I : OI round s D.
    Variable es : list (edge Z).
    Variable G1 : csr Z.
    Hypothesis HB : batch (m_G s) es G1.
    Let ed (i : nat) : edge Z := nth i es no_edge.
    Let b0 := {| b_vs := m_vs s; b_me := m_me s; b_P := m_P s; b_ex := fun _ => false;
               b_cur := batch_labels round (m_P s) es; b_ids := seq 0 (length es); b_out := [] |}.
    Lemma ed_In i : i < length es -> In (ed i) es.
    Proof. intros H. now apply nth_In. Qed.
    Lemma es_ed e : In e es -> exists i, i < length es /\ e = ed i.
    Proof. intros H. apply (In_nth _ _ no_edge) in H as (i & Hi & Ei). exists i. split; auto. Qed.
    Lemma es_E e : In e es -> In e E.
    Proof. intros H. apply (o_R I). now apply (ba_es HB). Qed.
    Lemma TE : incl (m_T s) E.
    Proof. intros e He. apply (o_DE I), (o_TD I), He. Qed.
    Lemma P_lt x : x < N -> m_P s x < N.
    Proof. intros Hx. apply (@conn_lt (m_T s) x (m_P s x) TE); auto. apply (o_conn I). symmetry. apply (o_flat I). Qed.
    Lemma start_inv : BI ed (length es) N D (m_T s) b0 (m_P s).
    Proof.
      constructor; cbn [b0 b_vs b_me b_P b_ex b_cur b_ids b_out].
      - apply I.
      - intros v Hv. now apply (o_vs I).
      - intros v Hv. now apply (o_vs I).
      - intros x. split; [apply (o_flat I)|now exists 1].
      - intros x y. simpl. rewrite app_nil_r. apply (o_conn I).
      - apply seq_NoDup.
      - intros i Hi. apply in_seq in Hi. lia.
      - intros i Hi. unfold batch_labels. fold (ed i). destruct (Nat.ltb_spec 0 round) as [Hr|Hr]; auto. rewrite !(o_zero I); [|lia|lia]. now destruct (ed i) as [[a b] w].
      - intros i Hi. apply in_seq in Hi. apply (o_cross I), (ba_es HB), ed_In. lia.
      - intros i Hi. apply in_seq in Hi. assert (He : In (ed i) E) by (apply es_E, ed_In; lia). apply HE in He as (H1 & H2 & _). split; (apply (o_vs I); split; [now apply P_lt|apply (o_flat I)]).
      - intros i Hi Hn. exfalso. apply Hn, in_seq. lia.
      - intros r Hr Hp. left. now apply (o_vs I).
      - discriminate.
      - intros x Hx. now apply (o_big I).
      - constructor.
      - intros i [].
      - intros i [].
    Qed.
    Lemma es_top i : i < length es -> (wgh (ed i) <= top)%Z.
    Proof. intros Hi. apply HE, es_E, ed_In, Hi. Qed.
    Lemma batch_runs : exists b, bloop top b0 b.
    Proof. eapply bloop_runs; [exact es_top|apply (o_D I)|apply le_n|apply start_inv]. Qed.

    Variable b : bstate.
    Hypothesis Hb : bloop top b0 b.
    Variable P' : nat -> nat.
    Hypothesis Hj : jump (seq 0 N) (b_P b) P'.
    Variable es2 : list (edge Z).
    Variable G2 : csr Z.
    Hypothesis HF : filters thr fb (fun u x => if P' u =? P' (fst x) then 1 else 0) G1 es2 G2.
    Let T' := m_T s ++ map ed (b_out b).
    Let s' := {| m_G := G2; m_vs := b_vs b ++ filter (b_ex b) (seq 0 N); m_me := b_me b; m_P := P'; m_T := T' |}.
    Theorem round_ok : OI (S round) s' (D ++ es).
    Proof.
      destruct (bloop_inv es_top (o_D I) Hb start_inv) as (rt & B & Hg).
      assert (Hids : b_ids b = []).
      { destruct (b_ids b) as [|i l] eqn:Ei; auto. exfalso. assert (Hi : In i (b_ids b)) by (rewrite Ei; now left). destruct (bi_act B Hi) as [A1 A2]. pose proof (bi_cross B Hi) as Hc.
        unfold bgoes in Hg. rewrite Ei in Hg.
        destruct (b_vs b) as [|x [|y l']]; simpl in *; [tauto| |discriminate]. destruct A1 as [A1|[]], A2 as [A2|[]]. congruence. }
      assert (Hspan : forall i, i < length es -> rt (src (ed i)) = rt (dst (ed i))) by (intros i Hi; apply (bi_dead B); auto; rewrite Hids; auto).
      assert (HP : forall x, P' x = rt x).
      { intros x. rewrite (@jump_ok (b_P b) rt (bi_rt B) _ _ Hj x). destruct (memb x (seq 0 N)) eqn:Em; auto. apply memb_not in Em. assert (Hx : b_P b x = x) by (apply (bi_big B); rewrite in_seq in Em; lia).
        rewrite Hx. eapply tree_root_det; [|apply (bi_rt B)]. now apply tree_root_self. }
      assert (Hcn : forall x y, P' x = P' y <-> connected (ends T') x y) by (intros x y; rewrite !HP; apply (bi_conn B)).
      assert (Hbn : forall i, i < length es -> connected (ends (m_T s ++ map ed (upto ed (b_out b) i))) (src (ed i)) (dst (ed i))).
      { intros i Hi. eapply batch_bottleneck with (m := length es) (D := D); auto; [apply (bi_olt B)|apply (bi_ndo B)|apply (o_TD I)|apply (bi_light B)|]. intros j Hjj. apply (bi_conn B), Hspan, Hjj. }
      assert (Hpred : forall v x, (fun u (x : nat * Z) => if P' u =? P' (fst x) then 1 else 0) v x <= 2) by (intros v x; cbv beta; destruct (_ =? _); lia).
      destruct (filters_ok Hfb (ba_reg HB) Hpred HF) as (F1 & F2 & F3 & F4 & F5). cbn [fst] in F5.
      assert (HR2 : forall e, In e (graph_edges G2) <-> In e (graph_edges G1) /\ P' (src e) <> P' (dst e)).
      { intros e. rewrite F5. destruct (Nat.eqb_spec (P' (src e)) (P' (dst e))); intuition; discriminate. }
      assert (Hone : forall e, In e (graph_edges (m_G s)) -> spanned T' e \/ In e (graph_edges G2) \/ dst e < src e).
      { intros e He. destruct (ba_all HB He) as [H|[H|H]]; auto.
        - left. apply es_ed in H as (i & Hi & ->). eapply spanned_of; [apply Hbn; auto| |].
          + intros f Hf. unfold T'. apply in_app_iff in Hf as [Hf|Hf]; apply in_or_app; auto. right. apply in_map_iff in Hf as (j & <- & Hjj). apply upto_In in Hjj as [Hjj _]. now apply in_map.
          + intros f Hf. apply in_app_iff in Hf as [Hf|Hf]; [apply (o_low I); auto; now apply (o_TD I)|]. apply in_map_iff in Hf as (j & <- & Hjj). apply upto_In in Hjj as [_ [Hk| ->]]; [unfold klt in Hk|]; lia.
        - destruct (Nat.eq_dec (P' (src e)) (P' (dst e))) as [Eq|Eq]; [left|right; left; now apply HR2]. eapply spanned_of; [apply Hcn, Eq|apply incl_refl|].
          intros f Hf. unfold T' in Hf. apply in_app_iff in Hf as [Hf|Hf]; [apply (o_low I); auto; now apply (o_TD I)|]. apply in_map_iff in Hf as (j & <- & Hjj). apply (ba_low HB); auto. apply ed_In, (bi_olt B), Hjj. }
      constructor; cbn [s' m_G m_vs m_me m_P m_T].
      - auto.
      - rewrite F2, (ba_n HB). apply I.
      - auto.
      - intros e He. apply HR2 in He as [He _]. now apply (o_R I), (ba_left HB).
      - intros e He. now apply HR2 in He.
      - intros x. rewrite !HP. eapply tree_root_det; [apply (bi_rt B)|]. apply tree_root_self, (bi_rt B).
      - intros x Hx. rewrite HP. eapply tree_root_det; [apply (bi_rt B)|]. now apply tree_root_self, (bi_big B).
      - apply NoDup_app_iff. split; [apply B|]. split; [apply NoDup_filter, seq_NoDup|]. intros v Hv Hx. apply filter_In in Hx as [_ Hx]. now apply (bi_ex B) in Hx.
      - intros v. rewrite in_app_iff, filter_In, in_seq, HP. split.
        + intros [Hv|[Hv Hx]]; (split; [try (now apply (bi_N B)); lia|]); (eapply tree_root_det; [apply (bi_rt B)|]); apply tree_root_self; [now apply (bi_self B)|now apply (bi_ex B)].
        + intros [Hv Hr]. destruct (@bi_roots _ _ _ _ _ _ _ B v Hv) as [H|H]; auto; [|right; split; auto; lia]. rewrite <- Hr at 1. rewrite (proj1 (bi_rt B v)). auto.
      - apply Hcn.
      - unfold T'. eapply batch_forest with (m := length es) (D := D); [apply (bi_olt B)|apply (bi_ndo B)|apply (o_TD I)|apply (bi_light B)|apply I].
      - unfold T'. intros e He. apply in_app_iff in He as [He|He]; apply in_or_app; [left; now apply (o_TD I)|right]. apply in_map_iff in He as (i & <- & Hi). apply ed_In, (bi_olt B), Hi.
      - intros e He. apply in_app_iff in He as [He|He]; [now apply (o_DE I)|now apply es_E].
      - intros d Hd. apply in_app_iff in Hd as [Hd|Hd].
        + apply (conn_ends_incl (T := m_T s)); [apply incl_appl, incl_refl|now apply (o_D I)].
        + apply es_ed in Hd as (i & Hi & ->). apply (bi_conn B), Hspan, Hi.
      - intros d e Hd He. apply HR2 in He as [He _]. apply in_app_iff in Hd as [Hd|Hd]; [apply (o_low I); auto; now apply (ba_left HB)|now apply (ba_low HB)].
      - intros e He. destruct (o_cover I He) as [H|[H|H]].
        + left. unfold spanned in *. eapply conn_ends_incl; [|exact H]. intros f Hf. apply filter_In in Hf as [Hf Hw]. apply filter_In. split; auto. apply in_or_app. auto.
        + destruct (Hone e H) as [H'|[H'|H']]; auto. destruct (o_sym I) as [Hs|Hs]; [|specialize (Hs e H); lia].
          destruct (Hone (flip e) (Hs e H)) as [H2|[H2|H2]]; auto; [left; now apply spanned_flip|]. unfold flip, src, dst in H2. simpl in H2. unfold src, dst in H'. lia.
        + destruct (Hone (flip e) H) as [H'|[H'|H']]; auto; [left; now apply spanned_flip|]. destruct (o_sym I) as [Hs|Hs]; [|specialize (Hs _ H); lia].
          pose proof (Hs _ H) as H0. rewrite flip_flip in H0. destruct (Hone e H0) as [H2|[H2|H2]]; auto. unfold flip, src, dst in H'. simpl in H'. unfold src, dst in H2. lia.
      - right. intros e He. apply HR2 in He as [He Hc]. pose proof (ba_src HB He). enough (src e <> dst e) by lia. congruence.
      - discriminate.
    Qed.
  End Round.

  Lemma mround_ok largemem round s s' D : OI round s D -> mround top thr fb largemem round s s' -> exists D', OI (S round) s' D'.
  Proof.
    intros I H. inversion H; subst. apply (get_batch_ok Hfb (o_reg I)) in H0 as [HB _]. rewrite (o_n I) in *. eexists. eapply round_ok; eauto.
  Qed.
  Lemma mloop_ok largemem round s s' : mloop top thr fb largemem round s s' -> forall D, OI round s D -> exists r' D', OI r' s' D' /\ gm (m_G s') = 0.
  Proof.
    induction 1 as [round s H|round s s1 s' H Hr Hl IH]; intros D I; [eauto|]. destruct (mround_ok I Hr) as (D1 & I1). eauto.
  Qed.
  Lemma mround_runs largemem round s D : OI round s D -> 0 < gm (m_G s) -> exists s', mround top thr fb largemem round s s' /\ (n_filter_steps <= round -> gm (m_G s') = 0).
  Proof.
    intros I Hm. destruct (@get_batch_runs thr fb Hfb largemem round (m_G s) (o_reg I) (o_m I) Hm) as (es & G1 & Hgb).
    destruct (get_batch_ok Hfb (o_reg I) Hgb) as [HB Hlast]. destruct (batch_runs I HB) as (b & Hb).
    destruct (bloop_inv (es_top I HB) (o_D I) Hb (start_inv I HB)) as (rt & B & Hg).
    destruct (@jump_runs (b_P b) rt (bi_rt B) (seq 0 (gn (m_G s)))) as (P' & Hj).
    assert (Hpred : forall v x, (fun u (x : nat * Z) => if P' u =? P' (fst x) then 1 else 0) v x <= 2) by (intros v x; cbv beta; destruct (_ =? _); lia).
    destruct (filters_runs thr Hfb (ba_reg HB) Hpred) as (es2 & G2 & HF). eexists. split; [eapply m_round; eauto|].
    intros Hr. cbn [m_G]. destruct (filters_ok Hfb (ba_reg HB) Hpred HF) as (F1 & F2 & F3 & F4 & F5). rewrite F3.
    destruct (graph_edges G2) as [|e l] eqn:El; auto. exfalso. assert (X : In e (e :: l)) by now left. apply F5 in X as [X _]. rewrite (Hlast Hr) in X. destruct X.
  Qed.
  Lemma mloop_runs largemem k : forall round s D, n_filter_steps - round <= k -> OI round s D -> exists s', mloop top thr fb largemem round s s'.
  Proof.
    induction k as [|k IH]; intros round s D Hk I; (destruct (Nat.eq_dec (gm (m_G s)) 0) as [Hm|Hm]; [exists s; now apply ml_done|]);
      (destruct (@mround_runs largemem round s D I) as (s1 & Hr & Hl); [lia|]); destruct (mround_ok I Hr) as (D1 & I1).
    - exists s1. eapply ml_step; [lia|exact Hr|]. apply ml_done. apply Hl. lia.
    - destruct (IH (S round) s1 D1) as (s' & Hs'); [lia|auto|]. exists s'. eapply ml_step; eauto. lia.
  Qed.
End Outer.
