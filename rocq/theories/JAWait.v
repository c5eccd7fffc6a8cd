(* Every call ends after a bounded number of its own steps. *)
From Verif Require Import Base UFSpec JAModel JATree JAProofs JASys.
Unset Strict Implicit.

Section Wait.
  Variable n : nat.
  Variable two : bool.

  (* how many more times roots can change *)
  Definition slack (m : mem) (x : nat) : nat := if rt m x then n + 1 - rk m x else 0.
  Definition phi (m : mem) : nat := list_sum (map (slack m) (seq 0 n)).
  Lemma sum_le (f g : nat -> nat) l : (forall x, In x l -> f x <= g x) -> list_sum (map f l) <= list_sum (map g l).
  Proof.
    unfold list_sum. induction l as [|x l IH]; intros H; simpl; auto.
    pose proof (H x (or_introl eq_refl)). assert (forall y, In y l -> f y <= g y) by (intros; apply H; now right). specialize (IH H1). lia.
  Qed.
  Lemma sum_lt (f g : nat -> nat) l a : (forall x, In x l -> f x <= g x) -> In a l -> f a < g a -> list_sum (map f l) < list_sum (map g l).
  Proof.
    intros H Ha Hl. apply in_split in Ha as (l1 & l2 & ->). rewrite !map_app. simpl. rewrite !list_sum_app. simpl.
    pose proof (@sum_le f g l1). pose proof (@sum_le f g l2).
    assert (list_sum (map f l1) <= list_sum (map g l1)) by (apply H0; intros; apply H; apply in_or_app; auto).
    assert (list_sum (map f l2) <= list_sum (map g l2)) by (apply H1; intros; apply H; apply in_or_app; simpl; auto). lia.
  Qed.
  Lemma phi_max m : phi m <= n * (n + 1).
  Proof.
    unfold phi. transitivity (list_sum (map (fun _ => n + 1) (seq 0 n))).
    - apply sum_le. intros x _. unfold slack. destruct (rt m x); lia.
    - assert (X : forall c k a, list_sum (map (fun _ => c) (seq a k)) = k * c).
      { intros c. induction k as [|k IH]; intros a; [reflexivity|]. cbn [seq map list_sum fold_right]. specialize (IH (S a)). unfold list_sum in IH. lia. }
      rewrite X. auto.
  Qed.

  (* the data of the roots is the same *)
  Definition rsame (m m' : mem) : Prop :=
    forall x, x < n -> rt m' x = rt m x /\ (rt m x = true -> rk m' x = rk m x /\ pa m' x = pa m x).
  Lemma rsame_phi m m' : rsame m m' -> phi m' = phi m.
  Proof.
    intros H. unfold phi. f_equal. apply map_ext_in. intros x Hx. apply in_seq in Hx. destruct (H x) as [A B]; [lia|].
    unfold slack. rewrite A. destruct (rt m x) eqn:E; auto. destruct (B eq_refl) as [-> _]. auto.
  Qed.
  Lemma quiet_rsame m m' : quiet n m m' -> rsame m m'.
  Proof. intros Q x Hx. rewrite (q_rt Q), (q_rk Q). split; auto. intros E. split; auto. now apply (q_pa Q). Qed.
  Lemma rsame_refl m : rsame m m.
  Proof. intros x Hx. auto. Qed.

  (* the steps left in a find *)
  Definition sround (b : bool) : nat := if b then 0 else 5.
  Definition fm (key : nat -> nat) (f : fstate) : nat :=
    match f with
    | F0 u => 11 * mu n key u + 1
    | F1 u => 11 * mu n key u
    | S1 b u => 11 * (mu n key u - 1) + 6 + sround b
    | S2 b u _ => 11 * (mu n key u - 1) + 5 + sround b
    | S3 b u _ _ => 11 * (mu n key u - 1) + 4 + sround b
    | S4 b u _ _ _ => 11 * (mu n key u - 1) + 3 + sround b
    | S5 b u _ _ _ => 11 * (mu n key u - 1) + 2 + sround b
    end.
  Definition FB : nat := 11 * (n * (n + 1) + n) + 12.
  Lemma mu_max key u : mu n key u <= n * (n + 1) + n.
  Proof.
    unfold mu. assert ((n - key u) * (n + 1) <= n * (n + 1)) by (apply Nat.mul_le_mono_r; lia). lia.
  Qed.
  Lemma fm_max key f : fm key f <= FB.
  Proof.
    unfold FB. destruct f as [u|u|b u|b u r|b u r v|b u r v isr|b u r v w]; simpl fm; pose proof (mu_max key u);
      try destruct b; unfold sround; lia.
  Qed.
  Lemma mu_key key key' u : key u <= key' u -> mu n key' u <= mu n key u.
  Proof.
    intros H. unfold mu. assert ((n - key' u) * (n + 1) <= (n - key u) * (n + 1)) by (apply Nat.mul_le_mono_r; lia). lia.
  Qed.
  Lemma fm_key key key' m x f : (forall z, z < n -> key z <= key' z) -> fok n key m x f -> fm key' f <= fm key f.
  Proof.
    intros L F. assert (X : forall u, u < n -> mu n key' u <= mu n key u) by (intros u Hu; apply mu_key; auto).
    destruct f as [u|u|b u|b u r|b u r v|b u r v isr|b u r v w]; simpl in F |- *; specialize (X u); lia.
  Qed.
  Lemma fm_later key m key' m' x f : later n key m key' m' -> fok n key m x f -> fm key' f <= fm key f.
  Proof. intros L. apply fm_key, (l_key L). Qed.
  Lemma kl_mu' key m a b : good n key m -> a < n -> b < n -> kl key a b -> mu n key b < mu n key a.
  Proof. intros G Ha Hb K. apply kl_mu; auto. now apply (g_bound G). Qed.

  Lemma fstep_fm key m x f m' z : good n key m -> x < n -> fok n key m x f -> fstep two m f = (m', z) ->
    match z with inl f' => fm key f' + 1 <= fm key f | inr _ => 1 <= fm key f end.
  Proof.
    intros G Hx F H. destruct f as [u|u|b u|b u r|b u r v|b u r v isr|b u r v w]; simpl in H, F.
    - injection H as <- <-. destruct (rt m u) eqn:E; [simpl; lia|]. destruct F as [Hu _]. destruct (g_par G Hu E) as [A B].
      pose proof (kl_mu' G Hu A B). destruct two; simpl; lia.
    - destruct F as (Hu & _ & E). destruct (g_par G Hu E) as [A B]. pose proof (kl_mu' G Hu A B). injection H as <- <-. simpl fm. lia.
    - injection H as <- <-. destruct b; simpl; lia.
    - injection H as <- <-. destruct b; simpl; lia.
    - injection H as <- <-. destruct b; simpl; lia.
    - injection H as <- <-. destruct isr; destruct b; simpl; lia.
    - destruct F as (Hu & _ & E & Hv & _ & K & _). pose proof (kl_mu' G Hu Hv K). 
      assert (Ez : z = inl (if b then F0 v else S1 true u)) by (destruct (holds m u v r false); congruence). subst z.
      destruct b; simpl fm; lia.
  Qed.

  (* -- a call ------------------------------------------------------------------------------ *)
  Definition K : nat := 2 * FB + 20.
  (* something read has changed, or the tries are up: one more round is needed *)
  Definition fbad (m : mem) (f : fstate) : bool := match f with S4 _ _ _ v true => negb (rt m v) | _ => false end.
  Definition bad (m : mem) (s : tstate) : bool :=
    match s with
    | First _ _ _ f => fbad m f
    | Second _ _ u f => negb (rt m u) || fbad m f
    | L1 _ _ u v => negb (rt m u && rt m v)
    | L2 _ _ u v ru tu => negb (tu && rt m u && (rk m u =? ru) && rt m v)
    | L3 _ _ u v ru tu pu => negb (tu && rt m u && (rk m u =? ru) && (pa m u =? pu) && rt m v)
    | L4 _ _ u v ru tu pu rv tv =>
        negb (tu && rt m u && (rk m u =? ru) && (pa m u =? pu) && rt m v && tv && (rk m v =? rv))
    | L5 _ _ _ _ a _ ep er _ _ => negb (holds m a ep er true)
    | L6 _ _ _ _ _ => true
    | _ => false
    end.
  Definition cost (key : nat -> nat) (s : tstate) : nat :=
    match s with
    | First _ _ _ f => fm key f + FB + 10
    | Second _ _ _ f => fm key f + 8
    | L1 _ _ _ _ => 6 | L2 _ _ _ _ _ _ => 5 | L3 _ _ _ _ _ _ _ => 4 | L4 _ _ _ _ _ _ _ _ _ => 3
    | L5 _ _ _ _ _ _ _ _ _ _ => 2 | L6 _ _ _ _ _ => 1
    | Query1 _ f => fm key f + FB + 2
    | Query2 f => fm key f + 1
    | Lab f => fm key f + 1
    | Done _ | Fault => 0
    end.
  Definition rem (key : nat -> nat) (m : mem) (s : tstate) : nat :=
    K * phi m + (if bad m s then K else 0) + cost key s.

  Lemma cost_later key m key' m' s : later n key m key' m' -> tok n key m s -> cost key' s <= cost key s.
  Proof.
    intros L T. destruct s; simpl in *; auto.
    - destruct T as (_ & _ & _ & _ & F). pose proof (fm_later L F). lia.
    - destruct T as (_ & _ & _ & _ & F). pose proof (fm_later L F). lia.
    - destruct T as (_ & x & _ & F). pose proof (fm_later L F). lia.
    - destruct T as (x & _ & F). pose proof (fm_later L F). lia.
    - destruct T as (x & _ & F). pose proof (fm_later L F). lia.
  Qed.
  Lemma fbad_rsame key m m' x f : rsame m m' -> fok n key m x f -> fbad m' f = fbad m f.
  Proof. intros R F. destruct f; simpl; auto. destruct isr; auto. f_equal. apply R. apply F. Qed.
  Lemma bad_rsame key m m' s : rsame m m' -> tok n key m s -> bad m' s = bad m s.
  Proof.
    intros R T.
    assert (Rt : forall x, x < n -> rt m' x = rt m x) by (intros; now apply R).
    assert (Rk : forall x, x < n -> rt m x = true -> rk m' x = rk m x) by (intros; now apply R).
    assert (Rp : forall x, x < n -> rt m x = true -> pa m' x = pa m x) by (intros; now apply R).
    destruct s as [x y b f|x y u f|x y u v|x y u v ru tu|x y u v ru tu pu|x y u v ru tu pu rv tv|x y u v a c ep er nr nb|x y u v a|y f|f|f|r|]; simpl in T |- *; auto.
    - destruct T as (_ & _ & _ & _ & F). eapply fbad_rsame; eauto.
    - destruct T as (_ & _ & Hu & _ & F). rewrite (fbad_rsame R F), Rt; auto.
    - destruct T as (_ & _ & Hu & Hv & _). now rewrite !Rt.
    - destruct T as (_ & _ & Hu & Hv & _). rewrite !Rt by auto. destruct (rt m u) eqn:E; [rewrite Rk; auto|rewrite !andb_false_r; auto].
    - destruct T as (_ & _ & Hu & Hv & _). rewrite !Rt by auto. destruct (rt m u) eqn:E; [rewrite Rk, Rp; auto|rewrite !andb_false_r; auto].
    - destruct T as (_ & _ & Hu & Hv & _). rewrite !Rt by auto. destruct (rt m u) eqn:E; [rewrite (Rk u), Rp; auto|rewrite !andb_false_r; auto].
      destruct (rt m v) eqn:E'; [rewrite (Rk v); auto|rewrite !andb_false_r; auto].
    - destruct T as (_ & _ & Hu & Hv & _ & _ & Hac & _). assert (Ha : a < n) by (destruct Hac as [[-> ->]|[-> ->]]; auto).
      unfold holds. rewrite Rt by auto. destruct (rt m a) eqn:E; [rewrite Rk, Rp; auto|rewrite !andb_false_r; auto].
  Qed.

  (* what a step does to the roots *)
  Lemma tstep_roots key m s coin m' s' : good n key m -> tok n key m s -> tstep n two coin m s = (m', s') ->
    rsame m m' \/ (phi m' < phi m /\ exists x y u v a c ep er nr nb, s = L5 x y u v a c ep er nr nb).
  Proof.
    intros G T H. unfold tstep in H.
    assert (Ha : negb (is_done s) && (n <=? taddr s) = false).
    { destruct (is_done s) eqn:E; auto. simpl. apply Nat.leb_gt. now apply (tok_addr T). }
    rewrite Ha in H. clear Ha.
    assert (Hf : forall x f (k : fstate + nat -> tstate), x < n -> fok n key m x f ->
      (let '(m1, z) := fstep two m f in (m1, k z)) = (m', s') -> rsame m m').
    { intros x f k Hx F Hs. destruct (fstep two m f) as [m1 z] eqn:E. injection Hs as <- <-.
      destruct (fstep_ok G Hx F E) as (_ & Q & _). now apply quiet_rsame. }
    destruct s as [x y b f|x y u f|x y u v|x y u v ru tu|x y u v ru tu pu|x y u v ru tu pu rv tv|x y u v a c ep er nr nb|x y u v a|y f|f|f|r|];
      cbn [tok] in T; try (left; injection H as <- <-; apply rsame_refl).
    - left. destruct T as (Hx & _ & _ & _ & F). exact (Hf x f (fun z => match z with inl f' => First x y b f' | inr u => Second x y u (F0 b) end) Hx F H).
    - left. destruct T as (_ & Hy & _ & _ & F). exact (Hf y f (fun z => match z with inl f' => Second x y u f' | inr v => if u =? v then Done 0 else L1 x y u v end) Hy F H).
    - destruct (holds m a ep er true) eqn:Hh; [|left; injection H as <- <-; apply rsame_refl].
      right. split; [|eauto 12]. assert (Em : m' = set_vdata m a c nr nb) by congruence. subst m'.
      apply holds_iff in Hh as (_ & Er & Et). destruct T as (_ & _ & Hu & Hv & _ & _ & Hac & _ & _ & Hn).
      assert (Han : a < n) by (destruct Hac as [[-> ->]|[-> ->]]; auto).
      destruct (g_bound G Han) as [_ Hb].
      unfold phi. apply sum_lt with a; [|apply in_seq; lia|].
      + intros z _. unfold slack. simpl. destruct (Nat.eq_dec z a) as [->|Hz]; [|now rewrite !fset_other].
        rewrite !fset_same, Et. destruct nb; lia.
      + unfold slack. simpl. rewrite !fset_same, Et. destruct nb; [|lia]. destruct Hn as [[_ Hn]|[Hn _]]; [discriminate|lia].
    - left. injection H as <- <-. intros z Hz. simpl. auto.
    - left. destruct T as (_ & x & Hx & F). exact (Hf x f (fun z => match z with inl f' => Query1 y f' | inr _ => Query2 (F0 y) end) Hx F H).
    - left. destruct T as (x & Hx & F). exact (Hf x f (fun z => match z with inl f' => Query2 f' | inr _ => Done 0 end) Hx F H).
    - left. destruct T as (x & Hx & F). exact (Hf x f (fun z => match z with inl f' => Lab f' | inr r => Done r end) Hx F H).
  Qed.

  (* a step of another call *)
  Lemma rem_other key m key' m' s : later n key m key' m' -> tok n key m s -> rsame m m' \/ phi m' < phi m ->
    rem key' m' s <= rem key m s.
  Proof.
    intros L T [R|R]; unfold rem.
    - rewrite (rsame_phi R), (bad_rsame R T). pose proof (cost_later L T). lia.
    - pose proof (cost_later L T).
      assert (K * phi m' + K <= K * phi m).
      { replace (K * phi m' + K) with (K * (phi m' + 1)) by lia. apply Nat.mul_le_mono_l. lia. }
      destruct (bad m' s), (bad m s); lia.
  Qed.

  Lemma first_cost key x y v u : cost key (First x y v (F0 u)) + 8 <= K.
  Proof. simpl cost. pose proof (fm_max key (F0 u)) as H. change (fm key (F0 u)) with (11 * mu n key u + 1) in H. unfold K. lia. Qed.

  (* a step of the call itself, measured with the old key *)
  Lemma own_step key m s coin m' s' : good n key m -> tok n key m s -> is_done s = false ->
    tstep n two coin m s = (m', s') -> forall key', later n key m key' m' -> tok n key' m' s' ->
    (forall f x, fok n key m' x f -> fm key' f <= fm key f) ->
    rem key' m' s' + 1 <= rem key m s.
  Proof.
    intros G T Hd H key' L T' Hk. pose proof (tstep_roots G T H) as HR.
    unfold tstep in H.
    assert (Ha : negb (is_done s) && (n <=? taddr s) = false).
    { rewrite Hd. simpl. apply Nat.leb_gt. now apply (tok_addr T). }
    rewrite Ha in H. clear Ha.
    assert (Hf : forall x f (k : fstate + nat -> tstate), x < n -> fok n key m x f ->
      (let '(m1, z) := fstep two m f in (m1, k z)) = (m', s') ->
      forall Q : Prop,
      (forall z, rsame m m' -> s' = k z ->
         match z with
         | inl f' => fok n key m' x f' /\ fm key' f' + 1 <= fm key f /\ (fbad m' f' = true -> fbad m f = true)
         | inr r => 1 <= fm key f /\ r < n /\ (rt m' r = false -> fbad m f = true)
         end -> Q) -> Q).
    { intros x f k Hx F Hs Q HQ. destruct (fstep two m f) as [m1 z] eqn:E. injection Hs as <- <-.
      pose proof (fstep_fm G Hx F E) as Hm. destruct (fstep_ok G Hx F E) as (_ & Qu & _ & Z).
      apply (HQ z); auto; [now apply quiet_rsame|]. destruct z as [f'|r].
      - split; auto. split; [pose proof (Hk _ _ Z); lia|]. intros Hb. exfalso.
        destruct f; simpl in E.
        + destruct (rt m u); [discriminate|]. destruct two; injection E as _ <-; discriminate.
        + injection E as _ <-. discriminate.
        + injection E as _ <-. discriminate.
        + injection E as _ <-. discriminate.
        + injection E as <- <-. simpl in Hb. destruct (rt m v); discriminate.
        + destruct isr; [discriminate|]. injection E as _ <-. discriminate.
        + assert (Ef : f' = if b then F0 v else S1 true u) by (destruct (holds m u v r false); congruence). subst f'. destruct b; discriminate.
      - split; auto. destruct Z as (Hr & _ & Z). split; auto. intros Hb. destruct Z as [Z|(b & u & r' & ->)]; [congruence|].
        simpl. rewrite (q_rt Qu) in Hb. now rewrite Hb. }
    destruct s as [x y b f|x y u f|x y u v|x y u v ru tu|x y u v ru tu pu|x y u v ru tu pu rv tv|x y u v a c ep er nr nb|x y u v a|y f|f|f|r|];
      cbn [tok] in T; try discriminate.
    - destruct T as (Hx & Hy & Hb & Sb & F).
      eapply (Hf x f (fun z => match z with inl f' => First x y b f' | inr u => Second x y u (F0 b) end)); eauto.
      intros z R -> Z. unfold rem. rewrite (rsame_phi R). destruct z as [f'|r].
      + destruct Z as (_ & Z & Zb). cbn [bad cost]. destruct (fbad m' f') eqn:E; [rewrite (Zb eq_refl)|]; destruct (fbad m f); lia.
      + destruct Z as (Z & Hr & Zb). cbn [bad cost fbad]. rewrite orb_false_r. pose proof (fm_max key' (F0 b)).
        destruct (rt m' r) eqn:E; cbn [negb orb andb]; [|rewrite (Zb eq_refl)]; destruct (fbad m f); lia.
    - destruct T as (Hx & Hy & Hu & Su & F).
      eapply (Hf y f (fun z => match z with inl f' => Second x y u f' | inr v => if u =? v then Done 0 else L1 x y u v end)); eauto.
      intros z R -> Z. unfold rem. rewrite (rsame_phi R). destruct (R u Hu) as [Ru _]. destruct z as [f'|r].
      + destruct Z as (_ & Z & Zb). cbn [bad cost]. rewrite Ru. destruct (rt m u); cbn [negb orb andb]; [|lia].
        destruct (fbad m' f') eqn:E; [rewrite (Zb eq_refl)|]; destruct (fbad m f); lia.
      + destruct Z as (Z & Hr & Zb). destruct (u =? r); cbn [bad cost]; [destruct (negb (rt m u) || fbad m f); lia|].
        rewrite Ru. destruct (rt m u); cbn [negb orb andb]; [|lia]. destruct (rt m' r) eqn:E; cbn [negb orb andb]; [|rewrite (Zb eq_refl)]; destruct (fbad m f); lia.
    - injection H as <- <-. unfold rem. cbn [bad cost]. rewrite Nat.eqb_refl, andb_true_r. destruct (rt m u), (rt m v); cbn [negb orb andb]; lia.
    - injection H as <- <-. unfold rem. cbn [bad cost]. rewrite Nat.eqb_refl, andb_true_r. lia.
    - injection H as <- <-. unfold rem. cbn [bad cost]. rewrite Nat.eqb_refl, andb_true_r.
      destruct (tu && rt m u && (rk m u =? ru) && (pa m u =? pu)), (rt m v); cbn [negb orb andb]; lia.
    - assert (Em : m' = m) by congruence. subst m'. unfold rem.
      assert (Es : s' = if negb tu || negb tv then First x y v (F0 u)
          else if ru <? rv then L5 x y u v u v pu ru ru false
          else if rv <? ru then L5 x y u v v u (pa m v) rv rv false
          else if u <? v then L5 x y u v u v pu ru (ru + 1) coin
          else L5 x y u v v u (pa m v) rv (rv + 1) coin) by congruence.
      cbn [cost]. destruct (bad m (L4 x y u v ru tu pu rv tv)) eqn:B.
      + assert (C : cost key' s' + (if bad m s' then K else 0) <= K + 2).
        { subst s'. destruct (negb tu || negb tv); [pose proof (first_cost key' x y v u); cbn [bad fbad]; lia|].
          destruct (ru <? rv); [cbn [cost]; match goal with |- context [if ?c then K else 0] => destruct c end; lia|]. destruct (rv <? ru); [cbn [cost]; match goal with |- context [if ?c then K else 0] => destruct c end; lia|].
          destruct (u <? v); cbn [cost]; match goal with |- context [if ?c then K else 0] => destruct c end; lia. }
        lia.
      + simpl in B. apply negb_false_iff in B. repeat (apply andb_true_iff in B as [B ?]). subst tu tv.
        repeat match goal with X : (_ =? _) = true |- _ => apply Nat.eqb_eq in X end.
        simpl in Es.
        assert (Bu : holds m u pu ru true = true) by (apply holds_iff; auto).
        assert (Bv : holds m v (pa m v) rv true = true) by (apply holds_iff; auto).
        subst s'. destruct (ru <? rv); [cbn [cost bad]; rewrite Bu; cbn [negb orb andb]; lia|]. destruct (rv <? ru); [cbn [cost bad]; rewrite Bv; cbn [negb orb andb]; lia|].
        destruct (u <? v); cbn [cost bad]; [rewrite Bu|rewrite Bv]; cbn [negb orb andb]; lia.
    - unfold rem. cbn [bad cost]. destruct (holds m a ep er true) eqn:Hh.
      + cbn [negb]. destruct HR as [R|[R _]].
        * exfalso. assert (Em : m' = set_vdata m a c nr nb) by congruence. destruct T as (_ & _ & Hu & Hv & _ & _ & Hac & _ & _ & Hn).
          assert (Han : a < n) by (destruct Hac as [[-> ->]|[-> ->]]; auto). apply holds_iff in Hh as (_ & Er & Et).
          destruct (R a Han) as [R1 R2]. destruct (R2 Et) as [R3 _]. subst m'. simpl in R1, R3. rewrite fset_same in R1. rewrite fset_same in R3.
          rewrite Et in R1. subst nb. destruct Hn as [[_ Hn]|[Hn _]]; [discriminate|lia].
        * assert (K * phi m' + K <= K * phi m).
          { replace (K * phi m' + K) with (K * (phi m' + 1)) by lia. apply Nat.mul_le_mono_l. lia. }
          assert (C : cost key' s' + (if bad m' s' then K else 0) <= K + 1).
          { destruct nb; [assert (s' = First x y v (F0 u)) as -> by congruence; pose proof (first_cost key' x y v u); cbn [bad fbad]; lia|].
            assert (s' = L6 x y u v a) as -> by congruence. cbn [bad cost]. lia. }
          lia.
      + cbn [negb]. injection H as <- <-. pose proof (first_cost key' x y v u). cbn [bad fbad]. lia.
    - injection H as <- <-. unfold rem. pose proof (first_cost key' x y v u). cbn [bad fbad cost] in *.
      replace (phi (set_edge m a (x, y))) with (phi m) by reflexivity. lia.
    - destruct T as (Hy & x & Hx & F). eapply (Hf x f (fun z => match z with inl f' => Query1 y f' | inr _ => Query2 (F0 y) end)); eauto.
      intros z R -> Z. unfold rem. rewrite (rsame_phi R). destruct z as [f'|r]; cbn [bad cost]; [lia|]. pose proof (fm_max key' (F0 y)). lia.
    - destruct T as (x & Hx & F). eapply (Hf x f (fun z => match z with inl f' => Query2 f' | inr _ => Done 0 end)); eauto.
      intros z R -> Z. unfold rem. rewrite (rsame_phi R). destruct z as [f'|r]; cbn [bad cost]; lia.
    - destruct T as (x & Hx & F). eapply (Hf x f (fun z => match z with inl f' => Lab f' | inr r => Done r end)); eauto.
      intros z R -> Z. unfold rem. rewrite (rsame_phi R). destruct z as [f'|r]; cbn [bad cost]; lia.
  Qed.

  (* -- the bound --------------------------------------------------------------------------- *)
  Definition call_steps : nat := K * (n * (n + 1)) + 2 * K.
  Definition turns (t : nat) (sched : list (nat * bool)) : nat := count_occ Nat.eq_dec (map fst sched) t.

  Lemma exec_rem js : forall sched s key t st, inv n js key s -> nth_error (snd s) t = Some st ->
    exists st', nth_error (snd (exec n two sched s)) t = Some st' /\
      (is_done st' = true \/ exists key', inv n js key' (exec n two sched s) /\
         rem key' (fst (exec n two sched s)) st' + turns t sched <= rem key (fst s) st).
  Proof.
    induction sched as [|c sched IH]; intros s key t st I Et.
    - exists st. split; auto. right. exists key. split; auto. simpl. unfold turns. simpl. lia.
    - simpl exec. change (fold_left (sys_step n two) sched (sys_step n two s c)) with (exec n two sched (sys_step n two s c)).
      destruct (sys_step_ok two c I) as (k1 & I1 & L1 & [E|(j & sc & sc' & Ej & Esc & J & Ht & El & R & D)]).
      + rewrite E in *. destruct (Nat.eq_dec (fst c) t) as [Ec|Ec].
        * destruct (is_done st) eqn:Hd.
          -- destruct (IH s key t st I Et) as (st' & E1 & E2). exists st'. split; auto. destruct E2 as [E2|(k2 & I2 & R2)]; auto.
             left. clear - E1 Et Hd. revert s st E1 Et Hd. induction sched as [|c sched IH]; intros s st E1 Et Hd; simpl in E1; [congruence|].
             eapply IH; [exact E1| |exact Hd]. unfold sys_step. destruct (nth_error (snd s) (fst c)) as [sc|] eqn:Es; auto.
             destruct (tstep n two (snd c) (fst s) sc) as [m1 s1] eqn:Ht. simpl.
             destruct (Nat.eq_dec t (fst c)) as [->|Hn]; [|rewrite nth_error_lset_other; auto].
             rewrite nth_error_lset_same by (apply nth_error_Some; congruence). assert (sc = st) as -> by congruence.
             unfold tstep in Ht. rewrite Hd in Ht. simpl in Ht. destruct st; simpl in Hd; try discriminate; congruence.
          -- exfalso. subst t. unfold sys_step in E. rewrite Et in E.
             assert (T : tok n key (fst s) st) by (destruct (Forall2_nth (proj2 I) Et) as (j & _ & J); eapply jok_tok; eauto).
             destruct (tstep n two (snd c) (fst s) st) as [m1 s1] eqn:Ht. 
             assert (m1 = fst s) by (rewrite <- E; auto). subst m1.
             assert (s1 = st).
             { assert (X : nth_error (snd s) (fst c) = Some s1).
               { replace (snd s) with (snd (fst s, lset (snd s) (fst c) s1)) by (now rewrite E). simpl. apply nth_error_lset_same. apply nth_error_Some; congruence. }
               congruence. }
             subst s1. pose proof (@own_step key (fst s) st (snd c) (fst s) st (proj1 I) T Hd Ht key (later_refl n key (fst s)) T). specialize (H (fun f x _ => le_n _)). lia.
        * destruct (IH s key t st I Et) as (st' & E1 & E2). exists st'. split; auto. destruct E2 as [E2|(k2 & I2 & R2)]; auto.
          right. exists k2. split; auto. unfold turns in *. simpl. destruct (Nat.eq_dec (fst c) t); [contradiction|auto].
      + assert (Hlen : fst c < length (snd s)) by (apply nth_error_Some; congruence).
        assert (T : tok n key (fst s) sc) by (eapply jok_tok; eauto).
        destruct (Nat.eq_dec (fst c) t) as [Ec|Ec].
        * subst t. assert (sc = st) by congruence. subst sc.
          assert (Et' : nth_error (snd (sys_step n two s c)) (fst c) = Some sc') by (rewrite El; now rewrite nth_error_lset_same).
          destruct (IH _ k1 (fst c) sc' I1 Et') as (st' & E1 & E2). exists st'. split; auto.
          destruct E2 as [E2|(k2 & I2 & R2)]; auto.
          destruct (is_done st) eqn:Hd.
          -- left. assert (Hd' : is_done sc' = true).
             { unfold tstep in Ht. rewrite Hd in Ht. simpl in Ht. destruct st; simpl in Hd; try discriminate; injection Ht as _ <-; auto. }
             clear - E1 Et' Hd'. revert E1 Et'. generalize (sys_step n two s c) as s0. revert sc' Hd'.
             induction sched as [|d sched IH]; intros st Hd s0 E1 Et; simpl in E1; [congruence|].
             eapply (IH st Hd); [exact E1|]. unfold sys_step. destruct (nth_error (snd s0) (fst d)) as [sc|] eqn:Es; auto.
             destruct (tstep n two (snd d) (fst s0) sc) as [m1 s1] eqn:Ht. simpl.
             destruct (Nat.eq_dec (fst c) (fst d)) as [E|Hn]; [|rewrite nth_error_lset_other; auto].
             rewrite E in *. rewrite nth_error_lset_same by (apply nth_error_Some; congruence). assert (sc = st) as -> by congruence.
             unfold tstep in Ht. rewrite Hd in Ht. simpl in Ht. destruct st; simpl in Hd; try discriminate; congruence.
          -- right. exists k2. split; auto.
             assert (T' : tok n k1 (fst (sys_step n two s c)) sc').
             { destruct (Forall2_nth (proj2 I1) Et') as (j' & _ & J'). eapply jok_tok; eauto. }
             pose proof (@own_step key (fst s) st (snd c) _ sc' (proj1 I) T Hd Ht k1 L1 T') as O.
             assert (O' : rem k1 (fst (sys_step n two s c)) sc' + 1 <= rem key (fst s) st).
             { apply O. intros f x F. eapply fm_key; [exact (l_key L1)|exact F]. }
             unfold turns in *. simpl. destruct (Nat.eq_dec (fst c) (fst c)); [lia|contradiction].
        * assert (Et' : nth_error (snd (sys_step n two s c)) t = Some st) by (rewrite El; rewrite nth_error_lset_other; auto).
          destruct (IH _ k1 t st I1 Et') as (st' & E1 & E2). exists st'. split; auto. destruct E2 as [E2|(k2 & I2 & R2)]; auto.
          right. exists k2. split; auto. 
          assert (Tst : tok n key (fst s) st) by (destruct (Forall2_nth (proj2 I) Et) as (j' & _ & J'); eapply jok_tok; eauto).
          pose proof (tstep_roots (proj1 I) T Ht) as RR.
          assert (RO : rem k1 (fst (sys_step n two s c)) st <= rem key (fst s) st) by (eapply rem_other; eauto; tauto).
          unfold turns in *. simpl. destruct (Nat.eq_dec (fst c) t); [contradiction|lia].
  Qed.
End Wait.
