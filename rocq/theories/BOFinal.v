(* Proofs for C64: the theorem for the whole call, and the inputs outside of its hypotheses. *)
From Coq Require Import ZArith Permutation.
From Verif Require Import Base ListUtil GBModel SFModel SFSpec SFProofs UFSpec FRSpec FRProofs BOModel BOLight BOJump BORound BOProofs.
Local Open Scope nat_scope.
Unset Strict Implicit.

Section Main.
  Variable top : Z.
  Variable thr fb : nat.
  Hypothesis Hfb : 0 < fb.
  Variable G : csr Z.
  Hypothesis HR : regions_ok G.
  Hypothesis Hm : gm G = total_degree G.
  Hypothesis HE : forall e, In e (graph_edges G) -> dst e < gn G /\ src e <> dst e /\ (wgh e <= top)%Z /\ In (flip e) (graph_edges G).
  Lemma HE' e : In e (graph_edges G) -> src e < gn G /\ dst e < gn G /\ (wgh e <= top)%Z.
  Proof. intros He. split; [now apply graph_edges_In in He|]. apply HE in He. tauto. Qed.
  Lemma init_inv me0 : OI (graph_edges G) (gn G) 0 {| m_G := G; m_vs := seq 0 (gn G); m_me := me0; m_P := fun v => v; m_T := [] |} [].
  Proof.
    constructor; cbn [m_G m_vs m_me m_P m_T]; auto.
    - now rewrite Hm, degree_length.
    - apply incl_refl.
    - intros e He. now apply HE.
    - apply seq_NoDup.
    - intros v. rewrite in_seq. intuition lia.
    - intros x y. now rewrite conn_nil.
    - intros l1 e l2 X. destruct l1; discriminate.
    - intros e [].
    - intros e [].
    - intros e [].
    - intros d e [].
    - left. intros e He. now apply HE.
  Qed.
  Lemma returns_msf largemem T : boruvka_returns top thr fb largemem G T -> minimum_spanning_forest (graph_edges G) T.
  Proof.
    intros (me0 & s & Hl & ->). destruct (mloop_ok Hfb HE' Hl (init_inv me0)) as (r & D & I & Hz).
    assert (Hnil : graph_edges (m_G s) = []) by (rewrite (o_m I) in Hz; now apply length_zero_iff_nil in Hz).
    assert (Hs : forall e, In e (graph_edges G) -> spanned (m_T s) e).
    { intros e He. destruct (o_cover I He) as [H|[H|H]]; auto; rewrite Hnil in H; destruct H. }
    apply bottleneck_minimum; auto. split; [|split; [apply I|]].
    - intros e He. apply (o_DE I), (o_TD I), He.
    - intros u v Huv. eapply conn_ends_closed; [|exact Huv]. intros e He. eapply conn_ends_incl; [|apply Hs, He]. intros f Hf. now apply filter_In in Hf.
  Qed.
  Lemma runs largemem : exists T, boruvka_returns top thr fb largemem G T.
  Proof.
    destruct (@mloop_runs top thr fb Hfb (graph_edges G) (gn G) HE' largemem 5 0 _ [] ltac:(unfold n_filter_steps; lia) (init_inv (fun _ => (None, 0%Z)))) as (s & Hs).
    exists (m_T s), (fun _ => (None, 0%Z)), s. auto.
  Qed.
End Main.

Lemma flat_none {A} (f : nat -> list A) l : (forall i, In i l -> f i = []) -> flat_map f l = [].
Proof. intros H. induction l as [|x l IH]; simpl; auto. rewrite H by now left. apply IH. intros i Hi. apply H. now right. Qed.

(* weights above the limit: nothing is selected *)
Section Heavy.
  Variable top : Z.
  Variable thr fb : nat.
  Hypothesis Hfb : 0 < fb.
  Lemma heavy_round s s' : (forall i, In i (b_ids s) -> (top < wgh (b_cur s i))%Z) -> bround top s s' -> b_vs s' = [] /\ b_out s' = b_out s.
  Proof.
    intros Hw H. inversion H; subst. cbn [b_vs b_out].
    assert (X : forall v, In v (b_vs s) -> mark (b_cur s) me v = KExhausted).
    { intros v Hv. unfold mark. destruct (@do_writes_min (b_cur s) ws (init top (b_vs s) (b_me s)) v) as (M1 & M2 & _). fold me in M1, M2.
      unfold init in M1, M2. apply memb_In in Hv. rewrite Hv in M1, M2. destruct M1 as [M1|([w i] & Hp & Hx & M1)]; [now rewrite M1|]. exfalso. rewrite M1 in M2.
      apply (Permutation_in _ H0), writes_In in Hp as [Hi _]. apply Hw in Hi. unfold less, key in M2. cbn [fst snd] in M2. apply Bool.orb_false_iff in M2 as [M2 _]. apply Z.ltb_ge in M2. lia. }
    split.
    - apply filter_none. intros v Hv. unfold is_root. now rewrite X.
    - rewrite <- (app_nil_r (b_out s)) at 2. f_equal. unfold new_edges. apply flat_none. intros v Hv. now rewrite X.
  Qed.
  Lemma heavy_loop s s' : bloop top s s' -> (forall i, In i (b_ids s) -> (top < wgh (b_cur s i))%Z) -> b_out s' = b_out s.
  Proof.
    intros H Hw. inversion H; subst; auto. destruct (heavy_round Hw H1) as [H3 H4]. inversion H2; subst; auto. unfold bgoes in H5. rewrite H3 in H5. discriminate.
  Qed.
  Lemma heavy_returns largemem G : regions_ok G -> (forall e, In e (graph_edges G) -> (top < wgh e)%Z) -> forall T, boruvka_returns top thr fb largemem G T -> T = [].
  Proof.
    intros HR Hw T (me0 & s & Hl & ->).
    assert (X : forall round s s', mloop top thr fb largemem round s s' -> regions_ok (m_G s) -> (forall e, In e (graph_edges (m_G s)) -> (top < wgh e)%Z) -> m_T s' = m_T s).
    { clear - Hfb. intros round s s' H. induction H as [round s H|round s s1 s' H Hr Hl IH]; intros HR Hw; auto.
      inversion Hr; subst. cbn [m_G m_T] in *. destruct (get_batch_ok Hfb HR H0) as [HB _].
      assert (Hpred : forall v x, (fun u (x : nat * Z) => if P' u =? P' (fst x) then 1 else 0) v x <= 2) by (intros v x; cbv beta; destruct (_ =? _); lia).
      destruct (filters_ok Hfb (ba_reg HB) Hpred H3) as (F1 & F2 & F3 & F4 & F5).
      rewrite IH; auto; [|intros e He; apply F5 in He as [He _]; now apply Hw, (ba_left HB)].
      assert (Ho : b_out b = []).
      { apply (heavy_loop H1). cbn [b_ids b_cur]. intros i Hi. apply in_seq in Hi. unfold batch_labels. assert (Y : In (nth i es no_edge) es) by (apply nth_In; lia). apply (ba_es HB), Hw in Y. destruct (0 <? round); auto. }
      rewrite Ho. simpl. apply app_nil_r. }
    apply (X _ _ _ Hl); auto.
  Qed.
End Heavy.

(* a self-loop *)
Definition loop_graph : csr Z := {| gn := 2; gm := 1; goff := [0; 1]; gdeg := [1; 0]; gngh := [(0, 5%Z)] |}.
Lemma loop_returns thr fb largemem T : 0 < fb -> boruvka_returns 2147483647 thr fb largemem loop_graph T -> T = [(0, 0, 5%Z)].
Proof.
  intros Hfb (me0 & s & Hl & ->). assert (HR : regions_ok loop_graph).
  { split; [reflexivity|]. split; [reflexivity|]. split; [intros [|[|v]] Hv; simpl in *; lia|]. intros [|[|u]] [|[|v]]; simpl; lia. }
  inversion Hl as [? ? H|? ? s1 ? _ Hr Hl']; subst; [discriminate|]. inversion Hr; subst. cbn [m_G m_vs m_me m_P m_T] in *.
  assert (Hall : get_all_edges loop_graph es G1) by (destruct largemem; exact H). clear H. pose proof Hall as (vshuffle & junk & H4 & H5).
  destruct (@filter_all_edges_ok Z fb Hfb (fun _ _ => true) vshuffle junk loop_graph HR H4) as (G3 & E & _). rewrite E in H5. injection H5 as <- ->.
  destruct (all_ok Hfb HR Hall) as (A1 & A2 & A3 & A4). change (edges_where (fun _ _ => true) loop_graph) with [(0, 0, 5%Z)] in *.
  assert (Hg : gm G2 = 0).
  { assert (Hpred : forall v x, (fun u (x : nat * Z) => if P' u =? P' (fst x) then 1 else 0) v x <= 2) by (intros v x; cbv beta; destruct (_ =? _); lia).
    destruct (filters_ok Hfb A1 Hpred H2) as (F1 & F2 & F3 & F4 & F5). rewrite F3. destruct (graph_edges G2) as [|e l]; auto. exfalso. destruct (proj1 (F5 e) (or_introl eq_refl)) as [X _]. rewrite A4 in X. destruct X. }
  inversion Hl' as [? ? X|? ? ? ? X]; subst; cbn [m_G m_T] in *; [|lia].
  inversion H0 as [? X2|? b1 ? X2 Hb Hb']; subst; [discriminate|]. inversion Hb; subst. cbn [b_vs b_me b_P b_ex b_cur b_ids b_out] in *.
  assert (ws = [(0, 0); (0, 0)]). { apply Permutation_sym in H. apply Permutation_length_2_inv in H as [->| ->]; reflexivity. }
  subst ws. assert (b_vs b = [] /\ b_out b = [0]) as [Ev Eo].
  { inversion Hb' as [? Y|? ? ? Y]; subst; [split; reflexivity|discriminate]. }
  rewrite Eo. reflexivity.
Qed.
Lemma jump_id vs P : (forall x, P x = x) -> exists P', jump vs P P' /\ forall x, P' x = x.
Proof.
  intros H. assert (Hr : forall x, tree_root P x (id x)) by (intros x; now apply tree_root_self).
  destruct (@jump_runs P id Hr vs) as (P' & Hj). exists P'. split; auto. intros x. rewrite (@jump_ok P id Hr vs P' Hj x). destruct (memb x vs); auto.
Qed.
Lemma one_batch top thr fb largemem (G : csr Z) : 0 < fb -> regions_ok G -> 0 < gm G <= gn G ->
  (largemem = false) ->
  (forall es, bgoes {| b_vs := seq 0 (gn G); b_me := fun _ => (None, 0%Z); b_P := fun v => v; b_ex := fun _ => false;
               b_cur := batch_labels 0 (fun v => v) es; b_ids := seq 0 (length es); b_out := [] |} = true ->
     let me := do_writes (batch_labels 0 (fun v => v) es) (writes (batch_labels 0 (fun v => v) es) (seq 0 (length es))) (init top (seq 0 (gn G)) (fun _ => (None, 0%Z))) in
     es = edges_where (fun _ _ => true) G ->
     (forall v, In v (seq 0 (gn G)) -> mark (batch_labels 0 (fun v => v) es) me v = KExhausted \/ exists i, mark (batch_labels 0 (fun v => v) es) me v = KHook v i)) ->
  exists T, boruvka_returns top thr fb largemem G T.
Proof.
  intros Hfb HR Hg -> Hk. assert (Hid : forall A, reorders (fun l : list A => l)) by (intros A l; apply Permutation_refl).
  destruct (@filter_all_edges_ok Z fb Hfb (fun _ _ => true) (fun l => l) (0, 0, 0%Z) G HR (Hid _)) as (G1 & E & HR1 & _).
  set (es := edges_where (fun _ _ => true) G) in *.
  assert (Hall : get_all_edges G es G1) by (exists (fun l => l), (0, 0, 0%Z); split; [apply Hid|exact E]).
  destruct (all_ok Hfb HR Hall) as (_ & _ & _ & A4).
  set (b0 := {| b_vs := seq 0 (gn G); b_me := fun _ => (None, 0%Z); b_P := fun v => v; b_ex := fun _ => false;
               b_cur := batch_labels 0 (fun v => v) es; b_ids := seq 0 (length es); b_out := [] |}).
  assert (Hb : exists b, bloop top b0 b /\ forall x, b_P b x = x).
  { destruct (bgoes b0) eqn:Eg; [|exists b0; split; [now apply bl_done|auto]]. specialize (Hk es Eg eq_refl). cbv zeta in Hk.
    set (ws := writes (b_cur b0) (b_ids b0)). set (me := do_writes (b_cur b0) ws (init top (b_vs b0) (b_me b0))).
    assert (Hh : forall x, hooked (b_cur b0) me (b_vs b0) (b_P b0) x = x).
    { intros x. unfold hooked. destruct (memb x (b_vs b0)) eqn:Em; auto. apply memb_In in Em. destruct (Hk x Em) as [X|(i & X)]; unfold me, ws; cbn [b0 b_cur b_vs b_ids b_me b_P]; now rewrite X. }
    destruct (@jump_id (b_vs b0) _ Hh) as (P' & Hj & HP). pose proof (@b_round top b0 ws P' (Permutation_refl _) Hj) as Hr. cbv zeta in Hr. match type of Hr with bround _ _ ?s1 => exists s1 end.
    split; [eapply bl_step; [exact Eg|exact Hr|]|exact HP].
    apply bl_done. unfold bgoes. cbn [b_vs b_ids]. rewrite (@filter_none _ _ (seq 0 (gn G))); auto. intros v Hv. unfold is_root. destruct (Hk v Hv) as [X|(i & X)].
    - change (match mark (b_cur b0) me v with KRoot => true | _ => false end = false). unfold me, ws, b0. cbn [b_cur b_vs b_ids b_me b_P]. now rewrite X.
    - change (match mark (b_cur b0) me v with KRoot => true | _ => false end = false). unfold me, ws, b0. cbn [b_cur b_vs b_ids b_me b_P]. now rewrite X. }
  destruct Hb as (b & Hb & HPb). destruct (@jump_id (seq 0 (gn G)) _ HPb) as (P' & Hj & HP).
  assert (Hpred : forall v x, (fun u (x : nat * Z) => if P' u =? P' (fst x) then 1 else 0) v x <= 2) by (intros v x; cbv beta; destruct (_ =? _); lia).
  destruct (filters_runs thr Hfb HR1 Hpred) as (es2 & G2 & HF). destruct (filters_ok Hfb HR1 Hpred HF) as (F1 & F2 & F3 & F4 & F5).
  assert (gm G2 = 0). { rewrite F3. destruct (graph_edges G2) as [|e l]; auto. exfalso. destruct (proj1 (F5 e) (or_introl eq_refl)) as [X _]. rewrite A4 in X. destruct X. }
  set (s0 := {| m_G := G; m_vs := seq 0 (gn G); m_me := fun _ => (None, 0%Z); m_P := fun v => v; m_T := [] |}).
  assert (Hg0 : get_batch thr fb false 0 (m_G s0) es G1).
  { unfold get_batch. change (0 <? n_filter_steps) with true. unfold get_top_k, split_idx. cbn [m_G s0].
    replace (_ =? _) with true; [exact Hall|]. symmetry. apply Nat.eqb_eq. apply Nat.min_r. transitivity (gn G); [lia|]. apply Nat.div_le_lower_bound; lia. }
  pose proof (@m_round top thr fb false 0 s0 es G1 b P' es2 G2 Hg0 Hb Hj HF) as Hr.
  match type of Hr with mround _ _ _ _ _ _ ?s1 => exists (m_T s1), (fun _ => (None, 0%Z)), s1 end. split; [|reflexivity].
  eapply ml_step; [cbn [m_G]; lia|exact Hr|apply ml_done; exact H].
Qed.
