(* Proofs for C79: the forest of the parents. *)
From Coq Require Import Permutation.
From Verif Require Import Base ListUtil VSModel VSSpec VSProofs EMModel EMSpec FAModel FASpec FAProofs
  UFSpec UFProps FRSpec CTSpec SPProofs JAForest JAProps BTModel BTSpec BTProofs BTLoops.
Unset Strict Implicit.

Lemma finite_choice n (R : nat -> nat -> Prop) : (forall v, v < n -> exists k, R v k) -> exists f, forall v, v < n -> R v (f v).
Proof.
  induction n as [|n IH]; intros H; [exists (fun _ => 0); lia|].
  destruct IH as [f Hf]; [intros v Hv; apply H; lia|]. destruct (H n (Nat.lt_succ_diag_r n)) as [k Hk].
  exists (fset f n k). intros v Hv. destruct (Nat.eq_dec v n) as [->|Hne]; [now rewrite fset_same|].
  rewrite fset_other by auto. apply Hf. lia.
Qed.

(* every edge belongs to one of its ends, of greater rank than the other *)
Definition owned (rank : nat -> nat) (v : nat) (e : nat * nat) : Prop :=
  exists p, (e = (v, p) \/ e = (p, v)) /\ rank p < rank v.

Lemma max_rank (rank : nat -> nat) (l : list nat) : l <> [] -> exists v, In v l /\ forall w, In w l -> rank w <= rank v.
Proof.
  induction l as [|x l IH]; [congruence|]. intros _. destruct l as [|y l].
  - exists x. split; [now left|]. intros w [<-|[]]. auto.
  - destruct IH as (v & Hv & Hm); [discriminate|]. destruct (Nat.le_ge_cases (rank x) (rank v)) as [H|H].
    + exists v. split; [now right|]. intros w [<-|Hw]; auto.
    + exists x. split; [now left|]. intros w [<-|Hw]; auto. pose proof (Hm w Hw). lia.
Qed.
Lemma apart_fresh T v p : (forall a b, In (a, b) T -> a <> v /\ b <> v) -> v <> p -> ~ connected T v p.
Proof.
  intros H Hne C. assert (X : forall x y, connected T x y -> x = y \/ x <> v /\ y <> v).
  { intros x y Cxy. induction Cxy as [a b E|a|a b _ IH|a b c _ IH1 _ IH2]; [right; now apply H|auto|intuition auto|].
    destruct IH1 as [->|[A B]]; auto. destruct IH2 as [<-|[C' D]]; auto. }
  destruct (X v p C) as [E|[E _]]; congruence.
Qed.
Lemma rank_forest (rank : nat -> nat) (g : nat -> option (nat * nat)) : forall k (l : list nat), length l = k -> NoDup l ->
  (forall v e, In v l -> g v = Some e -> owned rank v e) -> forest' (glist g l).
Proof.
  induction k as [|k IH]; intros l Hk Hnd H.
  - destruct l; [|discriminate]. simpl. intros l1 e l2 E. destruct l1; discriminate.
  - destruct (max_rank rank (l := l)) as (v & Hv & Hm); [destruct l; discriminate|].
    apply in_split in Hv as (l1 & l2 & ->).
    assert (Hp : Permutation (glist g (l1 ++ l2) ++ match g v with Some e => [e] | None => [] end) (glist g (l1 ++ v :: l2))).
    { unfold glist. rewrite !flat_map_app. simpl. rewrite <- app_assoc. apply Permutation_app_head. apply Permutation_app_comm. }
    apply (forest'_perm Hp).
    assert (Hnv : ~ In v (l1 ++ l2)) by (apply NoDup_remove_2; auto).
    assert (HT : forest' (glist g (l1 ++ l2))).
    { apply IH.
      - rewrite app_length in *. simpl in Hk. lia.
      - now apply NoDup_remove_1 in Hnd.
      - intros w e Hw. apply H. apply in_app_iff in Hw. apply in_app_iff. simpl. tauto. }
    destruct (g v) as [[a b]|] eqn:Eg; [|now rewrite app_nil_r].
    apply forest'_snoc; auto.
    destruct (H v (a, b)) as (p & Ep & Hr); auto; [apply in_app_iff; simpl; auto|].
    assert (Hvp : v <> p) by (intros ->; lia).
    assert (Hfr : ~ connected (glist g (l1 ++ l2)) v p).
    { apply apart_fresh; auto. intros x y Hxy. unfold glist in Hxy. apply in_flat_map in Hxy as (w & Hw & Hxy).
      destruct (g w) as [e|] eqn:Ew; [|easy]. destruct Hxy as [->|[]].
      assert (Hwl : In w (l1 ++ v :: l2)) by (apply in_app_iff in Hw; apply in_app_iff; simpl; tauto).
      destruct (H w (x, y) Hwl Ew) as (q & Eq & Hq). pose proof (Hm w Hwl).
      assert (w <> v) by (intros ->; contradiction). assert (q <> v) by (intros ->; lia).
      destruct Eq as [E|E]; injection E as -> ->; auto. }
    destruct Ep as [E|E]; injection E as -> ->; auto. intros C. apply Hfr. now apply csym.
Qed.

Section Forest.
  Variable n : nat.
  Variable outn : nat -> list nat.
  Hypothesis G : graph_ok n outn outn.

  Notation root_of := (root_of n outn).
  Notation closer := (closer outn).
  Record FInv (least : bool) (i : nat) (par : pstate) : Prop := {
    f_par : forall v p, par v = Some p -> exists r, root_of r v /\ (v = r /\ p = r \/ closer least r v p);
    f_cov : forall v u, v < n -> u < i -> reachable outn v u -> par v <> None;
    f_low : forall v p r, par v = Some p -> root_of r v -> r < i }.

  Lemma root_fun r r' v : root_of r v -> root_of r' v -> r = r'.
  Proof.
    intros (A1 & A2 & A3) (B1 & B2 & B3). apply Nat.le_antisymm.
    - apply A3. now apply (reach_sym G).
    - apply B3. now apply (reach_sym G).
  Qed.
  Lemma start_finv least : FInv least 0 (fun _ => None).
  Proof. split; [discriminate|intros; lia|discriminate]. Qed.
  Lemma fresh_component least i par : FInv least i par -> i < n -> par i = None -> forall v, reachable outn i v -> par v = None.
  Proof.
    intros HI Hi Hp v Hr. destruct (par v) as [p|] eqn:Ep; auto. exfalso. destruct (f_par HI Ep) as (r & Hroot & _).
    pose proof (f_low HI Ep Hroot) as Hlow. destruct Hroot as (A1 & A2 & A3).
    apply (@f_cov _ _ _ HI i r); auto. eapply reach_trans; [exact Hr|]. now apply (reach_sym G).
  Qed.
  Lemma skip_finv least i par : FInv least i par -> i < n -> par i <> None -> FInv least (S i) par.
  Proof.
    intros HI Hi Hp. split.
    - apply (f_par HI).
    - intros v u Hv Hu Hr. destruct (Nat.eq_dec u i) as [->|Hne]; [|apply (@f_cov _ _ _ HI v u); auto; lia].
      destruct (par i) as [p|] eqn:Ep; [|congruence]. destruct (f_par HI Ep) as (r & Hroot & _).
      apply (@f_cov _ _ _ HI v r); auto; [eapply f_low; eauto|]. destruct Hroot as (A1 & A2 & A3).
      eapply reach_trans; [exact Hr|]. now apply (reach_sym G).
    - intros v p r E Hr. pose proof (f_low HI E Hr). lia.
  Qed.
  Lemma search_finv least i par par' : FInv least i par -> i < n -> par i = None ->
    (forall v, par v <> None -> par' v = par v) ->
    (forall v, par' v <> None <-> par v <> None \/ reachable outn i v) ->
    (forall v p, par v = None -> par' v = Some p -> v = i /\ p = i \/ closer least i v p) ->
    FInv least (S i) par'.
  Proof.
    intros HI Hi Hp Hkeep Hvis Hnew.
    assert (Hnewroot : forall v, reachable outn i v -> root_of i v).
    { intros v Hr. split; auto. split; auto. intros u Hu. destruct (Nat.le_gt_cases i u) as [Hle|Hgt]; auto. exfalso.
      apply (@f_cov _ _ _ HI i u); auto. eapply reach_trans; eauto. }
    assert (Hcase : forall v p, par' v = Some p -> par v = Some p \/ par v = None /\ reachable outn i v).
    { intros v p E. destruct (par v) as [q|] eqn:Eq.
      - left. rewrite <- Eq, <- E, Hkeep; congruence.
      - right. split; auto. destruct (proj1 (Hvis v)) as [X|X]; congruence. }
    split.
    - intros v p E. destruct (Hcase v p E) as [E'|[E' Hr]]; [now apply (f_par HI)|]. exists i. split; auto.
    - intros v u Hv Hu Hr. apply Hvis. destruct (Nat.eq_dec u i) as [->|Hne].
      + right. now apply (reach_sym G).
      + left. apply (@f_cov _ _ _ HI v u); auto. lia.
    - intros v p r E Hroot. destruct (Hcase v p E) as [E'|[E' Hr]].
      + pose proof (f_low HI E' Hroot). lia.
      + pose proof (root_fun Hroot (Hnewroot v Hr)). lia.
  Qed.

  Variable m : nat.
  Lemma bfs_forest_inv i par : i <= n -> bfs_forest n outn m i par -> FInv false i par.
  Proof.
    intros Hi H. induction H as [|i par H IH Hp|i par k par' U H IH Hp Hl Hsz].
    - apply start_finv.
    - apply skip_finv; auto. apply IH. lia.
    - specialize (IH ltac:(lia)). pose proof (fresh_component IH Hi Hp) as H0.
      destruct (loop_binv G Hi H0 Hl) as [[F HI] _]. apply (search_finv IH); auto.
      + intros v Hv. now apply (b_keep HI).
      + exact (end_visited Hi H0 HI Hsz).
      + intros v p E E'. destruct (b_par HI v E E') as [X|(X & j & A & B)]; auto. right. split; auto. exists j.
        split; auto. split; auto. discriminate.
  Qed.
  Lemma bfs_forest_exists i : i <= n -> exists par, bfs_forest n outn m i par.
  Proof.
    induction i as [|i IH]; intros Hi; [eexists; apply forest_start|]. destruct IH as [par H]; [lia|].
    destruct (par i) as [p|] eqn:E; [exists par; apply forest_skip; auto; congruence|].
    pose proof (fresh_component (@bfs_forest_inv i par ltac:(lia) H) Hi E) as H0.
    destruct (@loop_ends n outn outn G m i Hi par H0) as (k & par' & U & A & B). exists par'. eapply forest_search; eauto.
  Qed.

  Hypothesis Hsimple : forall u, NoDup (outn u).
  Lemma det_forest_inv i par vis : i <= n -> det_forest n outn m i par vis -> FInv true i par /\ forall v, vis v = true <-> par v <> None.
  Proof.
    intros Hi H. induction H as [|i par vis H IH Hp|i par vis k par' vis' U H IH Hp Hl Hsz].
    - split; [apply start_finv|]. intros v. split; congruence.
    - destruct (IH ltac:(lia)) as [A B]. split; auto. now apply skip_finv.
    - destruct (IH ltac:(lia)) as [IH1 IH2]. pose proof (fresh_component IH1 Hi Hp) as H0.
      destruct (det_inv G Hsimple Hi H0 IH2 Hl) as [[F HI] _]. split; [|apply (i_v HI)]. apply (search_finv IH1); auto.
      + intros v Hv. now apply (b_keep (i_b HI)).
      + exact (end_visited Hi H0 (i_b HI) Hsz).
      + intros v p E E'. destruct (b_par (i_b HI) v E E') as [X|(X & j & A & B)]; auto. right. split; auto. exists j.
        split; auto. split; auto. intros _ q Hq Hdq. apply (@i_low _ _ _ _ _ _ _ _ _ HI v p j q); auto.
        intros ->. destruct B as [_ B]. apply (B 0); [lia|constructor].
  Qed.
  Lemma det_forest_exists i : i <= n -> exists par vis, det_forest n outn m i par vis.
  Proof.
    induction i as [|i IH]; intros Hi; [do 2 eexists; apply dforest_start|]. destruct IH as (par & vis & H); [lia|].
    destruct (par i) as [p|] eqn:E; [exists par, vis; apply dforest_skip; auto; congruence|].
    destruct (@det_forest_inv i par vis ltac:(lia) H) as [HF HV].
    pose proof (fresh_component HF Hi E) as H0.
    destruct (@det_ends n outn G Hsimple m i Hi par vis H0 HV) as (k & par' & vis' & U & A & B). exists par', vis'. eapply dforest_search; eauto.
  Qed.

  (* -- the result ------------------------------------------------------------------------ *)
  Section Result.
    Variable least : bool.
    Variable par : pstate.
    Hypothesis HF : FInv least n par.
    Definition edge_of (v : nat) : option (nat * nat) :=
      match par v with Some p => if p =? v then None else Some (v, p) | None => None end.
    Lemma edges_glist : parents_to_edges n par = glist edge_of (seq 0 n).
    Proof.
      unfold parents_to_edges, glist, edge_of. apply flat_map_ext. intros v. destruct (par v) as [p|]; auto. now destruct (p =? v).
    Qed.
    Lemma in_edges v p : In (v, p) (parents_to_edges n par) <-> v < n /\ par v = Some p /\ p <> v.
    Proof.
      unfold parents_to_edges. rewrite in_flat_map. split.
      - intros (i & Hi & H). apply in_seq in Hi. destruct (par i) as [q|] eqn:E; [|easy].
        destruct (Nat.eqb_spec q i) as [->|Hne]; [easy|]. destruct H as [H|[]]. injection H as <- <-. split; [lia|auto].
      - intros (Hv & E & Hne). exists v. split; [apply in_seq; lia|]. rewrite E. destruct (Nat.eqb_spec p v); [congruence|]. now left.
    Qed.
    Lemma has_parent v : v < n -> exists p, par v = Some p.
    Proof.
      intros Hv. pose proof (@f_cov _ _ _ HF v v Hv Hv (reach_refl outn v)) as H. destruct (par v); [eauto|congruence].
    Qed.
    Lemma has_root v : v < n -> exists r, root_of r v.
    Proof. intros Hv. destruct (has_parent Hv) as [p E]. destruct (f_par HF E) as (r & Hr & _). eauto. Qed.
    Lemma parent_edge v p : v < n -> par v = Some p -> p <> v -> exists r, root_of r v /\ closer least r v p.
    Proof. intros Hv E Hne. destruct (f_par HF E) as (r & Hr & [[-> ->]|H]); [congruence|eauto]. Qed.
    Lemma root_parent r v p : root_of r v -> par v = Some p -> (p = v <-> v = r).
    Proof.
      intros Hr E. destruct (f_par HF E) as (r' & Hr' & H). pose proof (root_fun Hr Hr'). subst r'. destruct H as [[-> ->]|(A & j & B & C & _)]; [tauto|].
      split.
      - intros ->. pose proof (dist_inj B C). lia.
      - intros ->. exfalso. destruct C as [_ C]. apply (C 0); [lia|constructor].
    Qed.
    Lemma levels : exists rank, forall v, v < n -> exists r, root_of r v /\ dist outn r v (rank v).
    Proof.
      apply (@finite_choice n (fun v k => exists r, root_of r v /\ dist outn r v k)). intros v Hv.
      destruct (has_parent Hv) as [p E]. destruct (f_par HF E) as (r & Hr & [[-> ->]|(A & j & B & C & _)]).
      - exists 0, r. split; auto. split; [constructor|lia].
      - exists (S j), r. auto.
    Qed.
    Lemma closer_root r v p : root_of r v -> closer least r v p -> p < n /\ root_of r p.
    Proof.
      intros (A1 & A2 & A3) (B1 & j & [B2 _] & _).
      assert (Hp : reachable outn r p) by now exists j. assert (Hpn : p < n) by (eapply reach_lt; eauto).
      split; auto. split; auto. split; auto. intros u Hu. apply A3. pose proof (reach_lt G A1 A2) as Hv.
      eapply reach_trans; [|exact Hu]. exists 1. apply walk_1. now apply (g_dual G).
    Qed.
    Lemma result_forest : forest' (parents_to_edges n par).
    Proof.
      destruct levels as [rank Hrank]. rewrite edges_glist.
      apply (@rank_forest rank edge_of (length (seq 0 n)) (seq 0 n) eq_refl (seq_NoDup n 0)).
      intros v e Hv He. apply in_seq in Hv. unfold edge_of in He. destruct (par v) as [p|] eqn:E; [|discriminate].
      destruct (Nat.eqb_spec p v) as [->|Hne]; [discriminate|]. injection He as <-. exists p. split; auto.
      destruct (@parent_edge v p ltac:(lia) E Hne) as (r & Hr & Hc). destruct (closer_root Hr Hc) as [Hpn Hrp].
      destruct Hc as (_ & j & B & C & _).
      destruct (Hrank v ltac:(lia)) as (r1 & R1 & D1). destruct (Hrank p Hpn) as (r2 & R2 & D2).
      pose proof (root_fun Hr R1). pose proof (root_fun Hrp R2). subst r1 r2.
      pose proof (dist_inj C D1). pose proof (dist_inj B D2). lia.
    Qed.
    Lemma result_incl : incl (parents_to_edges n par) (pairs n outn).
    Proof.
      intros [v p] H. apply in_edges in H as (Hv & E & Hne). destruct (parent_edge Hv E Hne) as (r & Hr & Hc).
      destruct (closer_root Hr Hc) as [Hpn _]. destruct Hc as (A & _). unfold pairs. apply in_flat_map. exists v.
      split; [apply in_seq; lia|]. apply in_map_iff. exists p. split; auto. now apply (g_dual G).
    Qed.
    Lemma result_root : forall k r v, root_of r v -> dist outn r v k -> connected (parents_to_edges n par) v r.
    Proof.
      induction k as [|k IH]; intros r v Hr Hd.
      - destruct Hd as [Hd _]. inversion Hd. subst. apply rst_refl.
      - pose proof Hr as (A1 & A2 & _). pose proof (reach_lt G A1 A2) as Hv. destruct (has_parent Hv) as [p E].
        assert (Hne : p <> v).
        { intros Ep. apply (root_parent Hr E) in Ep. subst v. destruct Hd as [_ X]. apply (X 0); [lia|constructor]. }
        destruct (parent_edge Hv E Hne) as (r' & Hr' & Hc). pose proof (root_fun Hr Hr'). subst r'.
        destruct (closer_root Hr Hc) as [Hpn Hrp]. destruct Hc as (_ & j & B & C & _).
        pose proof (dist_inj Hd C) as Ek. injection Ek as <-.
        eapply rst_trans; [|exact (IH r p Hrp B)]. apply rst_step. now apply in_edges.
    Qed.
    Lemma edges_range : edges_in_range n (pairs n outn).
    Proof.
      intros u v H. apply in_flat_map in H as (x & Hx & H). apply in_seq in Hx. apply in_map_iff in H as (y & E & Hy). injection E as <- <-.
      split; [lia|]. eapply g_out; eauto. lia.
    Qed.
    Lemma connected_reach u v : u < n -> connected (pairs n outn) u v -> reachable outn u v.
    Proof.
      intros Hu C. enough (X : u = v \/ (v < n /\ reachable outn u v)) by (destruct X as [->|[_ X]]; [apply reach_refl|auto]).
      assert (Y : forall a b, connected (pairs n outn) a b -> a = b \/ (a < n /\ b < n /\ reachable outn a b)).
      { intros a b H. induction H as [a b H|a|a b _ IH|a b c _ IH1 _ IH2].
        - right. pose proof (edges_range H) as [Ha Hb]. split; auto. split; auto. exists 1. apply walk_1.
          apply in_flat_map in H as (x & _ & H). apply in_map_iff in H as (y & E & Hy). now injection E as <- <-.
        - auto.
        - destruct IH as [->|(A & B & R)]; auto. right. split; auto. split; auto. now apply (reach_sym G).
        - destruct IH1 as [->|(A & B & R)]; auto. destruct IH2 as [<-|(A' & B' & R')]; auto.
          right. split; auto. split; auto. eapply reach_trans; eauto. }
      destruct (Y u v C) as [E|(_ & A & B)]; auto.
    Qed.
    Lemma result_spanning : spanning_forest (unweighted (pairs n outn)) (unweighted (parents_to_edges n par)).
    Proof.
      apply (@spanning_of n); [apply edges_range|apply result_incl|apply result_forest|].
      intros x y Hx Hy C. apply (connected_reach Hx) in C.
      destruct levels as [rank Hrank]. destruct (Hrank x Hx) as (r & Rx & Dx). destruct (Hrank y Hy) as (r' & Ry & Dy).
      assert (r = r').
      { destruct Rx as (A1 & A2 & A3). destruct Ry as (B1 & B2 & B3). apply Nat.le_antisymm.
        - apply A3. eapply reach_trans; [exact C|]. now apply (reach_sym G).
        - apply B3. eapply reach_trans; [now apply (reach_sym G Hx)|]. now apply (reach_sym G). }
      subst r'. eapply rst_trans; [exact (result_root Rx Dx)|]. apply rst_sym. exact (result_root Ry Dy).
    Qed.
  End Result.
End Forest.
