(* Invariants of the union-find with linking by rank. *)
From Verif Require Import Base UFSpec JAModel JATree.
Unset Strict Implicit.

Section Inv.
  Variable n : nat.

  (* key: the rank of a root; of a linked vertex the rank it had when it was linked (0 if it was
     linked initially) *)
  Record good (key : nat -> nat) (m : mem) : Prop := {
    g_bound : forall x, x < n -> key x + x <= n /\ rk m x + x <= n;
    g_root : forall x, x < n -> rt m x = true -> key x = rk m x;
    g_par : forall x, x < n -> rt m x = false -> pa m x < n /\ kl key x (pa m x) }.

  Lemma good_tree key m : good key m -> tree n key (up m).
  Proof.
    intros G x Hx. destruct (g_bound G Hx) as [A _]. unfold up. destruct (rt m x) eqn:E.
    - split; auto. split; auto. congruence.
    - destruct (g_par G Hx E). auto.
  Qed.
  Lemma up_root m x : rt m x = true -> up m x = x.
  Proof. unfold up. now intros ->. Qed.
  Lemma up_link key m x : good key m -> x < n -> rt m x = false -> up m x = pa m x /\ up m x <> x.
  Proof. intros G Hx E. destruct (g_par G Hx E) as [A B]. unfold up. rewrite E. split; auto. intros F. apply (kl_neq B). auto. Qed.

  (* what every step preserves *)
  Record later (key : nat -> nat) (m : mem) (key' : nat -> nat) (m' : mem) : Prop := {
    l_key : forall x, x < n -> key x <= key' x;
    l_linked : forall x, x < n -> rt m x = false -> rt m' x = false /\ key' x = key x;
    l_same : forall x y, x < n -> y < n -> same (up m) x y -> same (up m') x y }.
  Lemma later_refl key m : later key m key m.
  Proof. split; auto. Qed.
  Lemma later_trans key m key1 m1 key2 m2 : later key m key1 m1 -> later key1 m1 key2 m2 -> later key m key2 m2.
  Proof.
    intros [A B C] [A' B' C']. split.
    - intros x Hx. transitivity (key1 x); auto.
    - intros x Hx E. destruct (B x Hx E) as [E1 E2]. destruct (B' x Hx E1) as [E3 E4]. split; auto. congruence.
    - auto.
  Qed.
  Lemma later_kl key m key' m' a b : later key m key' m' -> a < n -> b < n -> rt m a = false -> kl key a b -> kl key' a b.
  Proof.
    intros L Ha Hb E K. destruct (l_linked L Ha E) as [_ E']. pose proof (l_key L Hb). unfold kl in *. rewrite E'. lia.
  Qed.

  (* the steps that change no tree *)
  Record quiet (m m' : mem) : Prop := {
    q_rt : forall x, rt m' x = rt m x;
    q_rk : forall x, rk m' x = rk m x;
    q_pa : forall x, rt m x = true -> pa m' x = pa m x;
    q_rooted : forall x, x < n -> forall r, rooted (up m) x r <-> rooted (up m') x r }.
  Lemma quiet_refl m : quiet m m.
  Proof. split; auto. intros; tauto. Qed.
  Lemma quiet_later key m m' : quiet m m' -> later key m key m'.
  Proof.
    intros Q. split; auto.
    - intros x Hx E. rewrite (q_rt Q). auto.
    - intros x y Hx Hy (r & A & B). exists r. rewrite <- !(q_rooted Q); auto.
  Qed.

  (* a find on behalf of x *)
  Definition fok (key : nat -> nat) (m : mem) (x : nat) (f : fstate) : Prop :=
    match f with
    | F0 u => u < n /\ same (up m) u x
    | F1 u | S1 _ u | S2 _ u _ => u < n /\ same (up m) u x /\ rt m u = false
    | S3 _ u _ v => u < n /\ same (up m) u x /\ rt m u = false /\ v < n /\ same (up m) v x /\ kl key u v
    | S4 _ u _ v isr => u < n /\ same (up m) u x /\ rt m u = false /\ v < n /\ same (up m) v x /\ kl key u v /\
        (isr = false -> rt m v = false)
    | S5 _ u _ v w => u < n /\ same (up m) u x /\ rt m u = false /\ v < n /\ same (up m) v x /\ kl key u v /\
        rt m v = false /\ w < n /\ same (up m) w x /\ kl key v w
    end.
  Lemma fok_addr key m x f : fok key m x f -> faddr f < n.
  Proof. destruct f; simpl; intuition. Qed.
  Lemma fok_later key m key' m' x f : later key m key' m' -> x < n -> fok key m x f -> fok key' m' x f.
  Proof.
    intros L Hx.
    assert (X1 : forall y, y < n -> same (up m) y x -> same (up m') y x) by (intros; now apply (l_same L)).
    assert (X2 : forall y, y < n -> rt m y = false -> rt m' y = false) by (intros; now apply (l_linked L)).
    assert (X3 : forall a b, a < n -> b < n -> rt m a = false -> kl key a b -> kl key' a b) by (intros; eapply later_kl; eauto).
    destruct f; simpl; intuition auto.
  Qed.

  Lemma holds_iff m a p r b : holds m a p r b = true <-> pa m a = p /\ rk m a = r /\ rt m a = b.
  Proof. unfold holds. rewrite !andb_true_iff, !Nat.eqb_eq, Bool.eqb_true_iff. tauto. Qed.

  Lemma same_pa key m u x : good key m -> x < n -> u < n -> rt m u = false -> same (up m) u x -> same (up m) (pa m u) x.
  Proof.
    intros G Hx Hu E S. destruct (up_link G Hu E) as [E1 _]. rewrite <- E1.
    eapply same_trans; [|exact S]. apply same_sym. eapply same_up; eauto using good_tree.
  Qed.

  (* changing the parent of a linked vertex u to w *)
  Lemma split_ok key m u w r : good key m -> u < n -> w < n -> rt m u = false -> rk m u = r -> kl key u w -> same (up m) u w ->
    good key (set_vdata m u w r false) /\ quiet m (set_vdata m u w r false).
  Proof.
    intros G Hu Hw E Er K S.
    assert (Hrt : forall x, rt (set_vdata m u w r false) x = rt m x).
    { intros x. simpl. destruct (Nat.eq_dec x u) as [->|H]; [now rewrite fset_same|now rewrite fset_other]. }
    assert (Hrk : forall x, rk (set_vdata m u w r false) x = rk m x).
    { intros x. simpl. destruct (Nat.eq_dec x u) as [->|H]; [now rewrite fset_same|now rewrite fset_other]. }
    split.
    - split.
      + intros x Hx. rewrite Hrk. now apply (g_bound G).
      + intros x Hx. rewrite Hrt, Hrk. now apply (g_root G).
      + intros x Hx. rewrite Hrt. intros Ex. simpl. destruct (Nat.eq_dec x u) as [->|H].
        * rewrite fset_same. auto.
        * rewrite fset_other by auto. now apply (g_par G).
    - split; auto.
      + intros x Ex. simpl. rewrite fset_other; auto. intros ->. congruence.
      + destruct (up_link G Hu E) as [U1 U2].
        apply (split_rooted (good_tree G) Hu Hw U2 K S).
        * unfold up. rewrite Hrt, E. simpl. apply fset_same.
        * intros x Hx. unfold up. rewrite Hrt. simpl. now rewrite fset_other.
  Qed.

  Lemma fstep_ok key m x two f m' z : good key m -> x < n -> fok key m x f -> fstep two m f = (m', z) ->
    good key m' /\ quiet m m' /\ ed m' = ed m /\
    match z with
    | inl f' => fok key m' x f'
    | inr r => r < n /\ same (up m') r x /\ (rt m' r = true \/ exists b u r', f = S4 b u r' r true)
    end.
  Proof.
    intros G Hx F H. destruct f as [u|u|b u|b u r|b u r v|b u r v isr|b u r v w]; simpl in H, F.
    - destruct F as [Hu S]. injection H as <- <-. split; auto. split; [apply quiet_refl|]. split; auto.
      destruct (rt m u) eqn:E; auto. destruct two; simpl; auto.
    - destruct F as (Hu & S & E). injection H as <- <-. split; auto. split; [apply quiet_refl|]. split; auto.
      simpl. split; [now apply (g_par G)|]. eapply same_pa; eauto.
    - destruct F as (Hu & S & E). injection H as <- <-. split; auto. split; [apply quiet_refl|]. split; auto.
      simpl. auto.
    - destruct F as (Hu & S & E). injection H as <- <-. split; auto. split; [apply quiet_refl|]. split; auto.
      simpl. destruct (g_par G Hu E) as [A B]. repeat (split; auto). eapply same_pa; eauto.
    - destruct F as (Hu & S & E & Hv & Sv & K). injection H as <- <-. split; auto. split; [apply quiet_refl|]. split; auto.
      simpl. repeat (split; auto).
    - destruct F as (Hu & S & E & Hv & Sv & K & I). injection H as <- <-. split; auto. split; [apply quiet_refl|]. split; auto.
      destruct isr; simpl.
      + split; auto. split; auto. right. eauto.
      + specialize (I eq_refl). destruct (g_par G Hv I) as [A B]. repeat (split; auto). eapply same_pa; eauto.
    - destruct F as (Hu & S & E & Hv & Sv & K & Ev & Hw & Sw & K'). 
      destruct (holds m u v r false) eqn:Hh; injection H as <- <-.
      + apply holds_iff in Hh as (_ & Er & _).
        destruct (@split_ok key m u w r) as [G' Q]; auto; [eapply kl_trans; eauto|eapply same_trans; [exact S|now apply same_sym]|].
        split; auto. split; auto. split; auto.
        assert (Y : forall a, a < n -> same (up m) a x -> same (up (set_vdata m u w r false)) a x) by
          (intros a Ha Sa; apply (l_same (quiet_later key Q)); auto).
        destruct b; cbn [fok]; split; auto; split; auto. rewrite (q_rt Q). auto.
      + split; auto. split; [apply quiet_refl|]. split; auto. destruct b; simpl; auto.
  Qed.

  (* -- link -------------------------------------------------------------------------------- *)
  (* a root a gets parent c: linked, or still a root with a greater rank *)
  Lemma cas_ok key m a c nr nb : good key m -> a < n -> c < n -> a <> c -> rt m a = true ->
    (rk m a < key c \/ (rk m a <= key c /\ a < c)) ->
    (nr = rk m a /\ nb = false \/ nr = rk m a + 1 /\ rk m a <= key c /\ a < c) ->
    exists key', good key' (set_vdata m a c nr nb) /\ later key m key' (set_vdata m a c nr nb) /\
      (nb = true -> forall x, x < n -> forall r, rooted (up m) x r -> rooted (up (set_vdata m a c nr nb)) x r) /\
      (nb = false -> (forall s, rooted (up m) c s -> forall x, x < n -> forall r,
                        rooted (up m) x r -> rooted (up (set_vdata m a c nr nb)) x (if r =? a then s else r))).
  Proof.
    intros G Ha Hc Hac E Hk Hn.
    assert (Ka : key a = rk m a) by now apply (g_root G).
    destruct (g_bound G Ha) as [Ba Ra]. destruct (g_bound G Hc) as [Bc Rc].
    assert (Hnr : nr + a <= n) by lia.
    destruct nb.
    - destruct Hn as [[_ Hn]|(Hn & Hn' & Hlt)]; [discriminate|].
      assert (Hup : forall x, up (set_vdata m a c nr true) x = up m x).
      { intros x. unfold up. simpl. destruct (Nat.eq_dec x a) as [->|H]; [rewrite !fset_same, E; auto|now rewrite !fset_other by auto]. }
      exists (fset key a nr). split; [|split; [|split]].
      + split.
        * intros x Hx. simpl. destruct (Nat.eq_dec x a) as [->|Hxa]; [rewrite !fset_same; auto|rewrite !fset_other by auto; now apply (g_bound G)].
        * intros x Hx. simpl. destruct (Nat.eq_dec x a) as [->|Hxa]; [now rewrite !fset_same|rewrite !fset_other by auto; now apply (g_root G)].
        * intros x Hx. simpl. destruct (Nat.eq_dec x a) as [->|Hxa]; [rewrite fset_same; discriminate|].
          rewrite !fset_other by auto. intros Ex. destruct (g_par G Hx Ex) as [A B]. split; auto.
          unfold kl in *. rewrite (fset_other key nr Hxa). destruct (Nat.eq_dec (pa m x) a) as [Ep|Ep]; [|now rewrite (fset_other key nr Ep)].
          rewrite Ep in *. rewrite fset_same. lia.
      + split.
        * intros x Hx. destruct (Nat.eq_dec x a) as [->|Hxa]; [rewrite fset_same; lia|now rewrite fset_other].
        * intros x Hx Ex. assert (Hxa : x <> a) by (intros ->; congruence). simpl. now rewrite !fset_other by auto.
        * intros x y Hx Hy (r & A & B). exists r. split; eapply rooted_ext; eauto.
      + intros _ x Hx r R. eapply rooted_ext; eauto.
      + discriminate.
    - exists key.
      assert (K : kl key a c) by (unfold kl; rewrite Ka; lia).
      assert (U1 : up (set_vdata m a c nr false) a = c) by (unfold up; simpl; rewrite !fset_same; auto).
      assert (U2 : forall x, x <> a -> up (set_vdata m a c nr false) x = up m x) by (intros x Hx; unfold up; simpl; now rewrite !fset_other).
      pose proof (fun s Hs => @link_rooted n key (up m) _ a c s (good_tree G) Ha Hc (up_root E) K Hs U1 U2) as LR.
      split; [|split; [|split]].
      + split.
        * intros x Hx. simpl. destruct (Nat.eq_dec x a) as [->|Hxa]; [rewrite fset_same; auto|rewrite fset_other by auto; now apply (g_bound G)].
        * intros x Hx. simpl. destruct (Nat.eq_dec x a) as [->|Hxa]; [rewrite fset_same; discriminate|rewrite !fset_other by auto; now apply (g_root G)].
        * intros x Hx. simpl. destruct (Nat.eq_dec x a) as [->|Hxa]; [rewrite !fset_same; auto|]. rewrite !fset_other by auto. now apply (g_par G).
      + split; auto.
        * intros x Hx Ex. simpl. destruct (Nat.eq_dec x a) as [->|Hxa]; [now rewrite fset_same|now rewrite fset_other].
        * intros x y Hx Hy (r & A & B). destruct (rooted_ex (good_tree G) Hc) as (s & _ & Hs).
          exists (if r =? a then s else r). split; eapply LR; eauto.
      + discriminate.
      + intros _ s Hs x Hx r R. now apply LR.
  Qed.

  (* -- calls ------------------------------------------------------------------------------- *)
  (* a rank read from a root *)
  Definition seen (key : nat -> nat) (v r : nat) (t : bool) : Prop := t = true -> r <= key v.
  Definition tok (key : nat -> nat) (m : mem) (s : tstate) : Prop :=
    match s with
    | First x y b f => x < n /\ y < n /\ b < n /\ same (up m) b y /\ fok key m x f
    | Second x y u f => x < n /\ y < n /\ u < n /\ same (up m) u x /\ fok key m y f
    | L1 x y u v => x < n /\ y < n /\ u < n /\ v < n /\ same (up m) u x /\ same (up m) v y /\ u <> v
    | L2 x y u v ru tu | L3 x y u v ru tu _ => x < n /\ y < n /\ u < n /\ v < n /\ same (up m) u x /\ same (up m) v y /\ u <> v /\
        seen key u ru tu
    | L4 x y u v ru tu _ rv tv => x < n /\ y < n /\ u < n /\ v < n /\ same (up m) u x /\ same (up m) v y /\ u <> v /\
        seen key u ru tu /\ seen key v rv tv
    | L5 x y u v a c _ er nr nb => x < n /\ y < n /\ u < n /\ v < n /\ same (up m) u x /\ same (up m) v y /\
        (a = u /\ c = v \/ a = v /\ c = u) /\ a <> c /\
        (er < key c \/ (er <= key c /\ a < c)) /\ (nr = er /\ nb = false \/ nr = er + 1 /\ er <= key c /\ a < c)
    | L6 x y u v a => x < n /\ y < n /\ u < n /\ v < n /\ same (up m) u x /\ same (up m) v y /\ a < n
    | Query1 y f => y < n /\ exists x, x < n /\ fok key m x f
    | Query2 f => exists x, x < n /\ fok key m x f
    | Lab f => exists x, x < n /\ fok key m x f
    | Done _ => True
    | Fault => False
    end.
  Lemma tok_later key m key' m' s : later key m key' m' -> tok key m s -> tok key' m' s.
  Proof.
    intros L.
    assert (X1 : forall y x, y < n -> x < n -> same (up m) y x -> same (up m') y x) by (intros; now apply (l_same L)).
    assert (X2 : forall x f, x < n -> fok key m x f -> fok key' m' x f) by (intros; eapply fok_later; eauto).
    assert (X3 : forall v r t, v < n -> seen key v r t -> seen key' v r t)
      by (unfold seen; intros v r t Hv Hs Ht; specialize (Hs Ht); pose proof (l_key L Hv); lia).
    destruct s; simpl; intros H.
    1-6: intuition auto.
    - destruct H as (A & B & C & D & E & F & I & J & K & M). pose proof (@l_key _ _ _ _ L c) as Lc.
      assert (Hc : c < n) by (destruct I as [[-> ->]|[-> ->]]; auto). specialize (Lc Hc).
      repeat (split; auto); [lia|]. destruct M as [M|(M1 & M2 & M3)]; [now left|right; repeat split; auto; lia].
    - intuition auto.
    - destruct H as (A & x & B & C). split; eauto.
    - destruct H as (x & B & C). eauto.
    - destruct H as (x & B & C). eauto.
    - auto.
    - auto.
  Qed.
  Lemma tok_addr key m s : tok key m s -> is_done s = false -> taddr s < n.
  Proof.
    destruct s; simpl; intros H E; try discriminate; try (intuition auto; fail).
    - eapply fok_addr. apply H.
    - eapply fok_addr. apply H.
    - destruct H as (A & B & C & D & _ & _ & [[-> ->]|[-> ->]] & _); auto.
    - destruct H as (_ & x & B & C). eapply fok_addr; eauto.
    - destruct H as (x & B & C). eapply fok_addr; eauto.
    - destruct H as (x & B & C). eapply fok_addr; eauto.
  Qed.

  (* what a step does to the trees: nothing, or it links root a with root-to-be c for edge (x, y) *)
  Definition linked_by (m m' : mem) (s s' : tstate) : Prop :=
    exists x y u v a c, s' = L6 x y u v a /\ rt m a = true /\ rt m' a = false /\ a < n /\ c < n /\
      x < n /\ y < n /\ (same (up m) a x /\ same (up m) c y \/ same (up m) a y /\ same (up m) c x) /\
      (exists ep er nr, s = L5 x y u v a c ep er nr false) /\
      forall s, rooted (up m) c s -> s <> a /\ forall x, x < n -> forall r,
                        rooted (up m) x r -> rooted (up m') x (if r =? a then s else r).
  Definition trees_kept (m m' : mem) : Prop :=
    (forall x, x < n -> forall r, rooted (up m) x r -> rooted (up m') x r) /\ forall x, rt m' x = rt m x.

  Lemma First_ok key m x y u v : good key m -> x < n -> y < n -> u < n -> v < n -> same (up m) u x -> same (up m) v y ->
    tok key m (First x y v (F0 u)).
  Proof. intros. simpl. auto 10. Qed.

  Lemma tstep_ok key m s two coin m' s' : good key m -> tok key m s -> tstep n two coin m s = (m', s') ->
    exists key', good key' m' /\ later key m key' m' /\ tok key' m' s' /\
      (trees_kept m m' \/ linked_by m m' s s') /\
      (ed m' = ed m \/ exists x y u v a, s = L6 x y u v a /\ m' = set_edge m a (x, y)).
  Proof.
    intros G T H. unfold tstep in H.
    assert (Ha : negb (is_done s) && (n <=? taddr s) = false).
    { destruct (is_done s) eqn:E; auto. simpl. apply Nat.leb_gt. now apply (tok_addr T). }
    rewrite Ha in H. clear Ha.
    assert (Hf : forall x f (k : fstate + nat -> tstate), x < n -> fok key m x f ->
      (let '(m1, z) := fstep two m f in (m1, k z)) = (m', s') ->
      (forall m1, good key m1 -> later key m key m1 -> forall f', fok key m1 x f' -> tok key m1 (k (inl f'))) ->
      (forall m1, good key m1 -> later key m key m1 -> forall r, r < n -> same (up m1) r x -> tok key m1 (k (inr r))) ->
      exists key', good key' m' /\ later key m key' m' /\ tok key' m' s' /\
      (trees_kept m m' \/ linked_by m m' s s') /\
      (ed m' = ed m \/ exists x y u v a, s = L6 x y u v a /\ m' = set_edge m a (x, y))).
    { intros x f k Hx Ff Hs H1 H2. destruct (fstep two m f) as [m1 z] eqn:E. injection Hs as <- <-.
      destruct (fstep_ok G Hx Ff E) as (G1 & Q & Ed & Z). exists key. split; auto. split; [now apply quiet_later|].
      split; [|split; auto].
      - destruct z as [f'|r]; [apply H1|apply H2; try apply Z]; auto; now apply quiet_later.
      - left. split; [intros; now apply (q_rooted Q)|apply (q_rt Q)]. }
    assert (Hm : forall s1, (m, s1) = (m', s') -> tok key m s1 ->
      exists key', good key' m' /\ later key m key' m' /\ tok key' m' s' /\
      (trees_kept m m' \/ linked_by m m' s s') /\
      (ed m' = ed m \/ exists x y u v a, s = L6 x y u v a /\ m' = set_edge m a (x, y))).
    { intros s1 E T1. injection E as <- <-. exists key. split; auto. split; [apply later_refl|]. split; auto.
      split; auto. left. split; auto. }
    destruct s as [x y b f|x y u f|x y u v|x y u v ru tu|x y u v ru tu pu|x y u v ru tu pu rv tv|x y u v a c ep er nr nb|x y u v a|y f|f|f|r|];
      cbn [tok] in T.
    - destruct T as (Hx & Hy & Hb & Sb & F). eapply (Hf x f (fun z => match z with inl f' => First x y b f' | inr u => Second x y u (F0 b) end)); eauto.
      + intros m1 G1 L f' F'. simpl. repeat (split; auto). now apply (l_same L).
      + intros m1 G1 L r Hr Sr. simpl. repeat (split; auto). now apply (l_same L).
    - destruct T as (Hx & Hy & Hb & Sb & F).
      eapply (Hf y f (fun z => match z with inl f' => Second x y u f' | inr v => if u =? v then Done 0 else L1 x y u v end)); eauto.
      + intros m1 G1 L f' F'. simpl. repeat (split; auto). now apply (l_same L).
      + intros m1 G1 L r Hr Sr. simpl. destruct (Nat.eqb_spec u r) as [->|Hne]; simpl; auto. repeat (split; auto). now apply (l_same L).
    - destruct T as (Hx & Hy & Hu & Hv & Su & Sv & Hne). apply (Hm _ H). simpl. repeat (split; auto).
      intros E. rewrite (g_root G Hu E). auto.
    - destruct T as (Hx & Hy & Hu & Hv & Su & Sv & Hne & Hs). apply (Hm _ H). simpl. repeat (split; auto).
    - destruct T as (Hx & Hy & Hu & Hv & Su & Sv & Hne & Hs). apply (Hm _ H). simpl. repeat (split; auto).
      intros E. rewrite (g_root G Hv E). auto.
    - destruct T as (Hx & Hy & Hu & Hv & Su & Sv & Hne & Hsu & Hsv). apply (Hm _ H).
      destruct tu; simpl; [|auto 10]. destruct tv; simpl; [|auto 10].
      specialize (Hsu eq_refl). specialize (Hsv eq_refl).
      destruct (Nat.ltb_spec ru rv); [simpl; repeat (split; auto); lia|].
      destruct (Nat.ltb_spec rv ru); [simpl; repeat (split; auto); lia|].
      destruct (Nat.ltb_spec u v); simpl; repeat (split; auto); lia.
    - destruct T as (Hx & Hy & Hu & Hv & Su & Sv & Hac & Hne & Hk & Hn).
      destruct (holds m a ep er true) eqn:Hh.
      + apply holds_iff in Hh as (Ep & Er & Et).
        assert (Han : a < n) by (destruct Hac as [[-> ->]|[-> ->]]; auto).
        assert (Hcn : c < n) by (destruct Hac as [[-> ->]|[-> ->]]; auto).
        assert (Hr : exists s, rooted (up m) c s).
        { destruct (rooted_ex (good_tree G) Hcn) as (q & _ & Q). eauto. }
        subst er. destruct (cas_ok G Han Hcn Hne Et Hk Hn) as (key' & G' & L & Tt & Tf).
        assert (Em : m' = set_vdata m a c nr nb) by congruence. subst m'.
        exists key'. split; auto. split; auto.
        assert (Su' : same (up (set_vdata m a c nr nb)) u x) by now apply (l_same L).
        assert (Sv' : same (up (set_vdata m a c nr nb)) v y) by now apply (l_same L).
        destruct nb.
        * assert (Es : s' = First x y v (F0 u)) by congruence. subst s'. split; [apply First_ok; auto|].
          split; [|now left]. left. split; [intros; now apply Tt|].
          intros z. simpl. destruct (Nat.eq_dec z a) as [->|Hz]; [now rewrite fset_same|now rewrite fset_other].
        * assert (Es : s' = L6 x y u v a) by congruence. subst s'. split; [simpl; auto 10|].
          split; [|now left]. right. exists x, y, u, v, a, c. split; auto. split; auto. split; [simpl; now rewrite fset_same|].
          split; auto. split; auto. split; auto. split; auto. split.
          { destruct Hac as [[-> ->]|[-> ->]]; auto. }
          split; [eauto|]. intros q Hq. split; [|now apply Tf].
          intros ->. assert (Ra : rooted (up m) a a) by (apply r_here; now apply up_root).
          pose proof (Tf eq_refl _ Hq _ Han _ Ra) as Ra'. rewrite Nat.eqb_refl in Ra'.
          apply rooted_fix in Ra'. unfold up in Ra'. simpl in Ra'. rewrite !fset_same in Ra'. congruence.
      + apply (Hm _ H). apply First_ok; auto.
    - destruct T as (Hx & Hy & Hu & Hv & Su & Sv & Ha). injection H as <- <-.
      exists key. split; [|split; [|split; [|split]]].
      + destruct G as [G1 G2 G3]. split; auto.
      + split; auto.
      + apply First_ok; auto. destruct G as [G1 G2 G3]. split; auto.
      + left. split; auto.
      + right. exists x, y, u, v, a. auto.
    - destruct T as (Hy & x & Hx & F). eapply (Hf x f (fun z => match z with inl f' => Query1 y f' | inr _ => Query2 (F0 y) end)); eauto.
      + intros m1 G1 L f' F'. simpl. eauto.
      + intros m1 G1 L r Hr Sr. simpl. exists y. repeat (split; auto). eapply same_refl; eauto using good_tree.
    - destruct T as (x & Hx & F). eapply (Hf x f (fun z => match z with inl f' => Query2 f' | inr _ => Done 0 end)); eauto.
      + intros m1 G1 L f' F'. simpl. eauto.
      + simpl. auto.
    - destruct T as (x & Hx & F). eapply (Hf x f (fun z => match z with inl f' => Lab f' | inr r => Done r end)); eauto.
      + intros m1 G1 L f' F'. simpl. eauto.
      + simpl. auto.
    - apply (Hm _ H). simpl. auto.
    - destruct T.
  Qed.
End Inv.
