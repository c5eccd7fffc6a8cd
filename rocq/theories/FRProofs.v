(* Forests: exchange, and the size of a forest. *)
From Coq Require Import ZArith Permutation.
From Verif Require Import Base ListUtil GBModel UFSpec FRSpec.

Lemma conn_incl E E' u v : incl E E' -> connected E u v -> connected E' u v.
Proof. intros H. induction 1; [apply rst_step; auto|apply rst_refl|now apply rst_sym|eapply rst_trans; eauto]. Qed.
Lemma conn_closed E E' u v : (forall a b, In (a, b) E -> connected E' a b) -> connected E u v -> connected E' u v.
Proof. intros H. induction 1; [auto|apply rst_refl|now apply rst_sym|eapply rst_trans; eauto]. Qed.
Lemma conn_cons a b E u v : connected ((a, b) :: E) u v <->
  connected E u v \/ (connected E u a /\ connected E b v) \/ (connected E u b /\ connected E a v).
Proof.
  split.
  - induction 1 as [u v H| |u v H IH|u w v H1 IH1 H2 IH2].
    + destruct H as [E'|H]; [injection E' as <- <-; right; left; split; apply rst_refl|left; now apply rst_step].
    + left. apply rst_refl.
    + destruct IH as [IH|[[A B]|[A B]]]; [left; now apply rst_sym|right; right|right; left]; split; now apply rst_sym.
    + assert (T : forall x y z, connected E x y -> connected E y z -> connected E x z) by (intros; eapply rst_trans; eauto).
      assert (Y : forall x y, connected E x y -> connected E y x) by (intros; now apply rst_sym).
      destruct IH1 as [A|[[A B]|[A B]]], IH2 as [C|[[C D]|[C D]]]; eauto 8.
  - assert (I : forall x y, connected E x y -> connected ((a, b) :: E) x y) by (intros x y; apply conn_incl; intros z Hz; now right).
    assert (S1 : connected ((a, b) :: E) a b) by (apply rst_step; now left).
    intros [A|[[A B]|[A B]]]; auto.
    + eapply rst_trans; [apply I, A|]. eapply rst_trans; [exact S1|apply I, B].
    + eapply rst_trans; [apply I, A|]. eapply rst_trans; [apply rst_sym, S1|apply I, B].
Qed.
Lemma conn_nil u v : connected [] u v <-> u = v.
Proof. split; [induction 1; auto; try contradiction; congruence|intros ->; apply rst_refl]. Qed.
Lemma conn_dec E : forall u v, {connected E u v} + {~ connected E u v}.
Proof.
  induction E as [|[a b] E IH]; intros u v.
  - destruct (Nat.eq_dec u v) as [H|H]; [left; now apply conn_nil|right; now rewrite conn_nil].
  - destruct (IH u v) as [H1|H1]; [left; apply conn_cons; auto|]. destruct (IH u a) as [H2|H2], (IH b v) as [H3|H3], (IH u b) as [H4|H4], (IH a v) as [H5|H5];
      try (left; apply conn_cons; tauto); right; rewrite conn_cons; tauto.
Qed.
Lemma conn_same E E' u v : (forall e, In e E <-> In e E') -> connected E u v <-> connected E' u v.
Proof. intros H. split; apply conn_incl; intros e He; now apply H. Qed.

Section Forest.
  Variable W : Type.
  Notation edge := (edge W).
  Notation ends := (@ends W).
  (* if f is connected by h and B but not by B alone then f can replace h *)
  Lemma exchange B a b c d : connected ((a, b) :: B) c d -> ~ connected B c d -> connected ((c, d) :: B) a b.
  Proof.
    intros H1 H2. apply conn_cons in H1 as [H1|[[H1 H3]|[H1 H3]]]; [contradiction| |]; apply conn_cons; right; [left|right]; split; auto; apply rst_sym; auto.
  Qed.
  Lemma ends_app (l1 l2 : list edge) : ends (l1 ++ l2) = ends l1 ++ ends l2.
  Proof. apply map_app. Qed.
  Lemma forest_bound_from H : forall (B : list (nat * nat)) (F : list edge),
    (forall l1 e l2, F = l1 ++ e :: l2 -> ~ connected (B ++ ends (l1 ++ l2)) (src e) (dst e)) ->
    (forall e, In e F -> connected (B ++ H) (src e) (dst e)) -> length F <= length H.
  Proof.
    induction H as [|[a b] H IH]; intros B F HF HC; simpl.
    - destruct F as [|e F]; auto. exfalso. apply (HF [] e F eq_refl). specialize (HC e (or_introl eq_refl)). rewrite app_nil_r in HC.
      eapply conn_incl; [|exact HC]. apply incl_appl, incl_refl.
    - destruct (Forall_Exists_dec (fun e : edge => connected (B ++ H) (src e) (dst e)) (fun e => conn_dec _ _ _) F) as [Hall|Hex].
      + rewrite Forall_forall in Hall. apply Nat.le_le_succ_r, (IH B); auto.
      + apply Exists_exists in Hex as (e & He & Hn). apply in_split in He as (l1 & l2 & ->).
        assert (Hc : connected ((a, b) :: B ++ H) (src e) (dst e)).
        { apply (@conn_incl (B ++ (a, b) :: H)); [|apply HC, in_elt]. intros x Hx. apply in_app_iff in Hx as [Hx|[Hx|Hx]]; simpl; rewrite in_app_iff; auto. }
        pose proof (exchange Hc Hn) as Hx. rewrite app_length. simpl. rewrite Nat.add_succ_r, <- app_length. apply le_n_S. apply (IH ((src e, dst e) :: B)).
        * intros k1 f k2 E Hk.
          assert (Hk' : connected (B ++ (src e, dst e) :: ends (k1 ++ k2)) (src f) (dst f)).
          { eapply conn_incl; [|exact Hk]. intros x Hx'. simpl in Hx'. rewrite in_app_iff in *. simpl. tauto. }
          assert (In f (l1 ++ l2)) by (rewrite E; apply in_elt).
          (* remove f from l1 ++ e :: l2 *)
          assert (Hs : exists q1 q2, l1 ++ e :: l2 = q1 ++ f :: q2 /\ forall x, In x (q1 ++ q2) <-> x = e \/ In x (k1 ++ k2)).
          { clear - E. revert k1 E. induction l1 as [|y l1 IH]; intros k1 E; simpl in *.
            - exists (e :: k1), k2. split; [simpl; now rewrite E|]. intros x. simpl. intuition.
            - destruct k1 as [|z k1]; simpl in *.
              + injection E as -> <-. exists [], (l1 ++ e :: l2). split; auto. intros x. simpl. rewrite !in_app_iff. simpl. intuition.
              + injection E as -> E. destruct (IH _ E) as (q1 & q2 & E' & Hq). exists (z :: q1), q2. split; [simpl; now rewrite E'|]. intros x. simpl. rewrite Hq. intuition. }
          destruct Hs as (q1 & q2 & E' & Hq). apply (HF q1 f q2 E'). eapply conn_incl; [|exact Hk']. intros x Hx'. rewrite in_app_iff in *. destruct Hx' as [Hx'|Hx']; auto. right.
          unfold FRSpec.ends in *. destruct Hx' as [<-|Hx']; [apply in_map_iff; exists e; split; auto; apply Hq; auto|].
          apply in_map_iff in Hx' as (y & <- & Hy). apply in_map_iff. exists y. split; auto. apply Hq. auto.
        * intros f Hf. assert (Hf' : In f (l1 ++ e :: l2)) by (rewrite in_app_iff in *; simpl; tauto). apply HC in Hf'.
          eapply conn_closed; [|exact Hf']. intros x y Hxy. apply in_app_iff in Hxy as [Hxy|[Hxy|Hxy]].
          -- apply rst_step. simpl. rewrite in_app_iff. auto.
          -- injection Hxy as <- <-. exact Hx.
          -- apply rst_step. simpl. rewrite in_app_iff. auto.
  Qed.
  (* a forest inside the components of H has at most as many edges as H *)
  Lemma forest_bound (F H : list edge) : forest F -> (forall e, In e F -> connected (ends H) (src e) (dst e)) -> length F <= length H.
  Proof.
    intros HF HC. rewrite <- (map_length (fun e => (src e, dst e)) H). apply (@forest_bound_from (ends H) [] F); auto.
  Qed.
  Lemma forest_filter p (F : list edge) : forest F -> forest (filter p F).
  Proof.
    intros HF l1 e l2 E Hc.
    assert (X : forall (F l1 l2 : list edge) e, filter p F = l1 ++ e :: l2 -> exists k1 k2, F = k1 ++ e :: k2 /\ l1 = filter p k1 /\ l2 = filter p k2).
    { clear. induction F as [|x F IH]; simpl; intros l1 l2 e E; [destruct l1; discriminate|]. destruct (p x) eqn:Ep.
      - destruct l1 as [|y l1]; simpl in E.
        + injection E as -> <-. exists [], F. auto.
        + injection E as -> E. destruct (IH _ _ _ E) as (k1 & k2 & -> & -> & ->). exists (y :: k1), k2. simpl. now rewrite Ep.
      - destruct (IH _ _ _ E) as (k1 & k2 & -> & -> & ->). exists (x :: k1), k2. simpl. now rewrite Ep. }
    destruct (X _ _ _ _ E) as (k1 & k2 & -> & -> & ->). apply (HF k1 e k2 eq_refl). eapply conn_incl; [|exact Hc].
    unfold FRSpec.ends. intros y Hy. apply in_map_iff in Hy as (z & <- & Hz). apply in_map_iff. exists z. split; auto.
    rewrite in_app_iff in *. destruct Hz as [Hz|Hz]; apply filter_In in Hz; tauto.
  Qed.
  (* adding an edge between two components *)
  Lemma forest_snoc (F : list edge) e : forest F -> ~ connected (ends F) (src e) (dst e) -> forest (F ++ [e]).
  Proof.
    intros HF Hn l1 f l2 E Hc. destruct l2 as [|y l2] using rev_ind.
    - apply app_inj_tail in E as [-> ->]. rewrite app_nil_r in Hc. auto.
    - rewrite app_comm_cons, app_assoc in E. apply app_inj_tail in E as [-> <-].
      assert (Hc' : connected ((src e, dst e) :: ends (l1 ++ l2)) (src f) (dst f)).
      { eapply conn_incl; [|exact Hc]. unfold FRSpec.ends. rewrite app_assoc, map_app. intros x Hx. apply in_app_iff in Hx as [Hx|[Hx|[]]]; simpl; auto. }
      apply Hn. pose proof (exchange Hc' (HF _ _ _ eq_refl)) as Hx. eapply conn_incl; [|exact Hx].
      unfold FRSpec.ends. intros x [<-|Hx']; [apply in_map_iff; exists f; split; auto; apply in_elt|].
      apply in_map_iff in Hx' as (z & <- & Hz). apply in_map_iff. exists z. split; auto. rewrite in_app_iff in *. simpl. tauto.
  Qed.
End Forest.

Local Open Scope Z_scope.
Definition zsum (l : list Z) : Z := fold_right Z.add 0 l.
Lemma zmax_split (l : list Z) : l <> [] -> exists l1 a l2, l = l1 ++ a :: l2 /\ forall x, In x l -> x <= a.
Proof.
  induction l as [|x l IH]; [congruence|]. intros _. destruct l as [|y l]; [exists [], x, []; split; auto; intros z [<-|[]]; lia|].
  destruct IH as (l1 & a & l2 & E & H); [congruence|]. destruct (Z.le_gt_cases x a) as [Hx|Hx].
  - exists (x :: l1), a, l2. rewrite E. split; auto. intros z [<-|Hz]; [lia|]. rewrite <- E in Hz. auto.
  - exists [], x, (y :: l). split; auto. intros z [<-|Hz]; [lia|]. apply H in Hz. lia.
Qed.
Lemma zsum_app l1 l2 : zsum (l1 ++ l2) = zsum l1 + zsum l2.
Proof. induction l1 as [|x l1 IH]; simpl; auto. rewrite IH. lia. Qed.
Definition cle (t : Z) (l : list Z) : nat := length (filter (fun x => x <=? t) l).
Lemma cle_app t l1 l2 : cle t (l1 ++ l2) = (cle t l1 + cle t l2)%nat.
Proof. unfold cle. rewrite filter_app. apply app_length. Qed.
Lemma cle_all t l : (forall x, In x l -> x <= t) -> cle t l = length l.
Proof. intros H. unfold cle. rewrite filter_all; auto. intros x Hx. apply Z.leb_le. auto. Qed.
Lemma cle_le t l : (cle t l <= length l)%nat.
Proof. apply filter_len_le. Qed.
(* of two lists of the same length, the one with more small elements has the smaller sum *)
Lemma sum_le k : forall A B, length A = k -> length B = k -> (forall t, (cle t B <= cle t A)%nat) -> zsum A <= zsum B.
Proof.
  induction k as [|k IH]; intros A B HA HB H; [apply length_zero_iff_nil in HA, HB; now subst|].
  destruct (@zmax_split A) as (a1 & a & a2 & -> & Ha); [intros ->; discriminate|]. destruct (@zmax_split B) as (b1 & b & b2 & -> & Hb); [intros ->; discriminate|].
  rewrite app_length in *. simpl in *.
  assert (Hab : a <= b).
  { specialize (H b). rewrite (@cle_all b (b1 ++ b :: b2)) in H by auto. destruct (Z.le_gt_cases a b) as [|Hgt]; auto. exfalso.
    rewrite (cle_app b a1 (a :: a2)) in H. unfold cle at 2 in H. simpl in H. rewrite (proj2 (Z.leb_gt a b)) in H by lia.
    pose proof (cle_le b a1). pose proof (cle_le b a2). fold (cle b a2) in H. rewrite app_length in H. simpl in H. lia. }
  assert (zsum (a1 ++ a2) <= zsum (b1 ++ b2)); [|rewrite !zsum_app in *; simpl; unfold zsum in *; simpl; lia].
  apply IH; [rewrite app_length; lia|rewrite app_length; lia|]. intros t. destruct (Z.le_gt_cases a t) as [Ht|Ht].
  - rewrite (@cle_all t (a1 ++ a2)); [pose proof (cle_le t (b1 ++ b2)); rewrite app_length in *; lia|].
    intros x Hx. assert (x <= a); [|lia]. apply Ha. rewrite in_app_iff in *. simpl. tauto.
  - specialize (H t). rewrite !cle_app in *. unfold cle at 2 4 in H. simpl in H. rewrite (proj2 (Z.leb_gt a t)), (proj2 (Z.leb_gt b t)) in H by lia. exact H.
Qed.

(* a spanning forest in which each edge of E is spanned by edges no heavier is minimum *)
Theorem bottleneck_minimum (E T : list (edge Z)) : spanning_forest E T ->
  (forall e, In e E -> connected (ends (filter (fun f => wgh f <=? wgh e) T)) (src e) (dst e)) -> minimum_spanning_forest E T.
Proof.
  intros HT Hb. split; auto. intros T' (Hi & Hf & Hs). destruct HT as (HTi & HTf & HTs).
  assert (L1 : (length T' <= length T)%nat).
  { apply forest_bound; auto. intros e He. apply HTs, rst_step. apply in_map_iff. exists e. auto. }
  assert (L2 : (length T <= length T')%nat).
  { apply forest_bound; auto. intros e He. apply Hs, rst_step. apply in_map_iff. exists e. auto. }
  apply (@sum_le (length T)); [apply map_length|rewrite map_length; lia|]. intros t. unfold cle.
  assert (X : forall l : list (edge Z), length (filter (fun x => x <=? t) (map (fun e => wgh e) l)) = length (filter (fun e => wgh e <=? t) l)).
  { induction l as [|x l IH]; simpl; auto. destruct (wgh x <=? t); simpl; auto. }
  rewrite !X. apply forest_bound; [now apply forest_filter|]. intros e He. apply filter_In in He as [He Ht]. apply Z.leb_le in Ht.
  eapply conn_incl; [|apply Hb; auto]. unfold ends. intros x Hx. apply in_map_iff in Hx as (f & <- & Hf'). apply in_map_iff. exists f. split; auto.
  apply filter_In in Hf' as [H1 H2]. apply filter_In. split; auto. apply Z.leb_le in H2. apply Z.leb_le. lia.
Qed.
