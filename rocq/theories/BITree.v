(* The graph theory of C67: in a breadth-first forest, the components that remain after the
   removal of the critical tree edges are the biconnected components. *)
From Verif Require Import Base ListUtil UFSpec FRProofs BISpec.
Unset Strict Implicit.

(* -- paths that avoid a vertex ------------------------------------------------------- *)
Section Avoid.
  Variable n : nat.
  Variable outn : nat -> list nat.
  Hypothesis Hrange : forall u v, u < n -> In v (outn u) -> v < n.
  Hypothesis Hsym : forall u v, u < n -> In v (outn u) -> In u (outn v).
  Notation pav := (path_avoiding outn).

  Lemma pa_trans c a b d : pav c a b -> pav c b d -> pav c a d.
  Proof. intros H1 H2. induction H2; auto. econstructor; eauto. Qed.
  Lemma pa_edge c a b : In b (outn a) -> a <> c -> b <> c -> pav c a b.
  Proof. intros. econstructor; eauto. now constructor. Qed.
  Lemma pa_lt c a b : a < n -> pav c a b -> b < n.
  Proof. intros Ha H. induction H; eauto. Qed.
  Lemma pa_not c a b : pav c a b -> a <> c /\ b <> c.
  Proof. intros H. induction H; tauto. Qed.
  Lemma pa_sym c a b : a < n -> pav c a b -> pav c b a.
  Proof.
    intros Ha H. induction H as [|u v H IH Hin Hv]; [now constructor|].
    eapply pa_trans; [|apply IH]. apply pa_edge; auto.
    - apply Hsym; auto. eapply pa_lt; eauto.
    - apply (pa_not H).
  Qed.

  Lemma same_sym e f : fst e < n -> snd e < n -> same_bicc outn e f -> same_bicc outn f e.
  Proof. intros H1 H2 H c p q Hp Hq Hpc Hqc. apply pa_sym; [destruct Hq; subst; auto|]. now apply H. Qed.
  Lemma same_trans e f g : fst f <> snd f -> same_bicc outn e f -> same_bicc outn f g -> same_bicc outn e g.
  Proof.
    intros Hf H1 H2 c p q Hp Hq Hpc Hqc. destruct (Nat.eq_dec (fst f) c) as [E|E].
    - apply pa_trans with (snd f); [apply H1|apply H2]; auto; congruence.
    - apply pa_trans with (fst f); [apply H1|apply H2]; auto.
  Qed.
  Lemma same_flip e a b : same_bicc outn e (a, b) -> same_bicc outn e (b, a).
  Proof. intros H c p q Hp Hq. apply H; auto. simpl in *. tauto. Qed.
  Lemma same_refl a b : a < n -> In b (outn a) -> same_bicc outn (a, b) (a, b).
  Proof.
    intros Ha Hb c p q Hp Hq Hpc Hqc. simpl in *. destruct Hp, Hq; subst; try now constructor.
    - now apply pa_edge.
    - apply pa_edge; auto.
  Qed.
End Avoid.

(* -- connectivity as a closed set ----------------------------------------------------- *)
Lemma conn_set E (S : nat -> Prop) a b :
  (forall x y, In (x, y) E -> (S x <-> S y)) -> connected E a b -> (S a <-> S b).
Proof. intros H C. induction C as [x y H1|x|x y H1 IH|x y z H1 IH1 H2 IH2]; firstorder. Qed.
Lemma conn_refl E a : connected E a a.
Proof. apply rst_refl. Qed.
Lemma conn_sym E a b : connected E a b -> connected E b a.
Proof. apply rst_sym. Qed.
Lemma conn_trans E a b c : connected E a b -> connected E b c -> connected E a c.
Proof. apply rst_trans. Qed.
Lemma conn_edge E a b : In (a, b) E -> connected E a b.
Proof. intros H. now apply rst_step. Qed.

Lemma iter_plus {A} (f : A -> A) a b x : Nat.iter (a + b) f x = Nat.iter a f (Nat.iter b f x).
Proof. induction a; simpl; congruence. Qed.
Lemma iter_split {A} (f : A -> A) k j x : j <= k -> Nat.iter (k - j) f (Nat.iter j f x) = Nat.iter k f x.
Proof. intros H. rewrite <- iter_plus. f_equal. lia. Qed.

Lemma least_of {A} (f : A -> nat) (l : list A) : l <> [] -> exists a, In a l /\ forall b, In b l -> f a <= f b.
Proof.
  induction l as [|x l IH]; [easy|]. intros _. destruct l as [|y l].
  - exists x. split; [now left|]. intros b [<-|[]]. auto.
  - destruct IH as (a & Ha & Hmin); [easy|]. destruct (le_lt_dec (f x) (f a)) as [L|L].
    + exists x. split; [now left|]. intros b [<-|Hb]; auto. specialize (Hmin b Hb). lia.
    + exists a. split; [now right|]. intros b [<-|Hb]; auto. lia.
Qed.

(* -- the forest ------------------------------------------------------------------------- *)
Section Forest.
  Variable n : nat.
  Variable outn : nat -> list nat.
  Hypothesis Hrange : forall u v, u < n -> In v (outn u) -> v < n.
  Hypothesis Hsym : forall u v, u < n -> In v (outn u) -> In u (outn v).
  Variable P dep : nat -> nat.
  Hypothesis HPn : forall v, v < n -> P v < n.
  Hypothesis HP : forall v, v < n -> P v = v /\ dep v = 0 \/ P v <> v /\ dep v = S (dep (P v)) /\ In v (outn (P v)).
  Hypothesis Hbfs : forall u v, u < n -> In v (outn u) -> dep v <= S (dep u).

  (* a is v or an ancestor of v *)
  Definition sub (a v : nat) : Prop := exists k, Nat.iter k P v = a.
  Definition root (v : nat) : nat := Nat.iter (dep v) P v.

  Hypothesis Hroot : forall u v, u < n -> In v (outn u) -> root u = root v.

  Lemma sub_refl a : sub a a.
  Proof. now exists 0. Qed.
  Lemma iter_P k v : Nat.iter k P (P v) = P (Nat.iter k P v).
  Proof. induction k; simpl; congruence. Qed.
  Lemma iter_lt k v : v < n -> Nat.iter k P v < n.
  Proof. intros H. induction k; simpl; auto. Qed.
  Lemma sub_trans a b c : sub a b -> sub b c -> sub a c.
  Proof.
    intros [k Hk] [j Hj]. exists (k + j). subst. apply iter_plus.
  Qed.
  Lemma sub_parent v : sub (P v) v.
  Proof. now exists 1. Qed.
  Lemma sub_up a v : sub a (P v) -> sub a v.
  Proof. intros H. eapply sub_trans; eauto. apply sub_parent. Qed.
  Lemma sub_P a v : sub a v -> a <> v -> sub a (P v).
  Proof. intros [k Hk] Hne. destruct k; simpl in Hk; [congruence|]. exists k. now rewrite iter_P. Qed.
  Lemma sub_lt a v : v < n -> sub a v -> a < n.
  Proof. intros Hv [k <-]. now apply iter_lt. Qed.
  Lemma dep_P v : v < n -> dep (P v) <= dep v.
  Proof. intros Hv. destruct (HP Hv) as [[E _]|[_ [E _]]]; [now rewrite E|lia]. Qed.
  Lemma dep_root v : v < n -> (P v = v <-> dep v = 0).
  Proof. intros Hv. destruct (HP Hv) as [[A B]|[A [B _]]]; lia. Qed.
  Lemma dep_pos v : v < n -> P v <> v -> dep v = S (dep (P v)) /\ In v (outn (P v)).
  Proof. intros Hv Hne. destruct (HP Hv) as [[A B]|[A B]]; tauto. Qed.
  Lemma sub_dep a v : v < n -> sub a v -> dep a <= dep v.
  Proof.
    intros Hv [k <-]. induction k as [|k IH]; simpl; auto.
    pose proof (dep_P (iter_lt k Hv)). lia.
  Qed.
  Lemma sub_same a v : v < n -> sub a v -> dep a = dep v -> a = v.
  Proof.
    intros Hv Hs Hd. destruct (Nat.eq_dec a v) as [E|E]; auto. exfalso.
    pose proof (sub_P Hs E) as Hs'. pose proof (sub_dep (HPn Hv) Hs') as Hd'.
    destruct (Nat.eq_dec (P v) v) as [Er|Er].
    - destruct Hs as [k Hk]. apply E. rewrite <- Hk. clear - Er. induction k; simpl; congruence.
    - pose proof (dep_pos Hv Er). lia.
  Qed.
  Lemma iter_dep k v : v < n -> dep (Nat.iter k P v) = dep v - k.
  Proof.
    intros Hv. induction k as [|k IH]; simpl; [lia|].
    destruct (HP (iter_lt k Hv)) as [[A B]|[A [B _]]].
    - rewrite A, IH. lia.
    - lia.
  Qed.
  Lemma root_dep v : v < n -> dep (root v) = 0.
  Proof. intros Hv. unfold root. rewrite iter_dep; auto. lia. Qed.
  Lemma root_sub v : sub (root v) v.
  Proof. now exists (dep v). Qed.
  Lemma root_lt v : v < n -> root v < n.
  Proof. apply iter_lt. Qed.
  Lemma sub_chain a b v : v < n -> sub a v -> sub b v -> dep a <= dep b -> sub a b.
  Proof.
    intros Hv [k Hk] [j Hj] Hd. destruct (le_lt_dec j k) as [L|L].
    - exists (k - j). subst b. rewrite <- Hk. now apply iter_split.
    - assert (Hs : sub b a).
      { exists (j - k). subst a. rewrite <- Hj. apply iter_split. lia. }
      assert (Ha : a < n) by (subst a; now apply iter_lt).
      pose proof (sub_dep Ha Hs). assert (Eb : b = a) by (apply sub_same; auto; lia). rewrite Eb. apply sub_refl.
  Qed.
  Lemma root_eq a v : v < n -> sub a v -> root a = root v.
  Proof.
    intros Hv Hs. assert (Ha : a < n) by (eapply sub_lt; eauto).
    assert (X : sub (root a) (root v)).
    { apply sub_chain with v; auto.
      - eapply sub_trans; eauto. apply root_sub.
      - apply root_sub.
      - rewrite !root_dep; auto. }
    apply sub_same; auto. now apply root_lt. now rewrite !root_dep.
  Qed.
  Lemma sub_root r v : v < n -> r < n -> P r = r -> root v = r -> sub r v.
  Proof. intros Hv Hr Er <-. apply root_sub. Qed.
  Lemma sub_dec a v : v < n -> {sub a v} + {~ sub a v}.
  Proof.
    intros Hv. destruct (Nat.eq_dec (Nat.iter (dep v - dep a) P v) a) as [E|E]; [left; eauto|].
    - now exists (dep v - dep a).
    - right. intros Hs. apply E. pose proof (sub_dep Hv Hs) as Hd. apply sub_same; [eapply sub_lt; eauto| |].
      + apply sub_chain with v; auto.
        * now exists (dep v - dep a).
        * rewrite iter_dep; auto. lia.
      + rewrite iter_dep; auto. lia.
  Qed.
  (* a proper descendant of q is below a child of q *)
  Lemma sub_child q v : v < n -> sub q v -> q <> v -> exists t, t < n /\ P t = q /\ t <> q /\ sub t v.
  Proof.
    intros Hv [k Hk] Hne. revert q Hk Hne. induction k as [|k IH]; intros q Hk Hne; simpl in Hk; [congruence|].
    destruct (Nat.eq_dec (Nat.iter k P v) q) as [E|E].
    - apply (IH q E Hne).
    - exists (Nat.iter k P v). repeat split; auto. now apply iter_lt. now exists k.
  Qed.

  Notation pav := (path_avoiding outn).

  Lemma up c a v : v < n -> sub a v -> (forall b, sub a b -> sub b v -> b <> c) -> pav c v a.
  Proof.
    intros Hv [k Hk]. revert v Hv Hk. induction k as [|k IH]; intros v Hv Hk Hav; simpl in Hk.
    - subst a. constructor. apply Hav; apply sub_refl.
    - assert (Hvc : v <> c). { apply Hav; [exists (S k); auto|apply sub_refl]. }
      destruct (Nat.eq_dec (P v) v) as [Er|Er].
      + assert (Ea : a = v). { rewrite <- Hk, <- iter_P, Er. clear - Er. induction k; simpl; congruence. }
        rewrite Ea. now apply pa_here.
      + destruct (dep_pos Hv Er) as [_ Hin]. rewrite <- iter_P in Hk.
        apply pa_trans with (P v); [|apply IH; auto].
        * apply pa_edge; auto. apply Hav; [now exists k|apply sub_parent].
        * intros b Hb1 Hb2. apply Hav; auto. now apply sub_up.
  Qed.
  Lemma up_root c v : v < n -> ~ sub c v -> pav c v (root v).
  Proof. intros Hv Hc. apply up; auto. apply root_sub. intros b _ Hb ->. auto. Qed.
  Lemma up_past c a v : v < n -> sub a v -> dep c < dep a -> pav c v a.
  Proof.
    intros Hv Ha Hd. apply up; auto. intros b Hb1 Hb2 ->.
    assert (c < n) by (eapply sub_lt; eauto). pose proof (sub_dep H Hb1). lia.
  Qed.

  (* -- edges that are not tree edges ------------------------------------------------------ *)
  Definition other (u v : nat) : Prop := u < n /\ In v (outn u) /\ u <> v /\ P u <> v /\ P v <> u.
  Lemma other_sym u v : other u v -> other v u.
  Proof. intros (A & B & C & D & E). repeat split; eauto. Qed.
  Lemma dep_adj u v : u < n -> In v (outn u) -> dep u <= S (dep v).
  Proof. intros Hu Hin. apply Hbfs; eauto. Qed.
  Lemma other_below u v : other u v -> ~ sub u v.
  Proof.
    intros (Hu & Hin & Hne & H1 & H2) Hs. assert (Hv : v < n) by eauto.
    pose proof (sub_P Hs Hne) as Hs'. pose proof (sub_dep (HPn Hv) Hs') as Hd.
    destruct (Nat.eq_dec (P v) v) as [Er|Er].
    - rewrite Er in Hd. pose proof (proj1 (dep_root Hv) Er).
      apply Hne. apply sub_same; auto. pose proof (sub_dep Hv Hs). lia.
    - destruct (dep_pos Hv Er) as [Ed _]. pose proof (Hbfs Hu Hin). apply H2. symmetry. apply sub_same; auto. lia.
  Qed.
  Lemma other_not_root u v : other u v -> P u <> u.
  Proof.
    intros Ho Er. assert (Hu : u < n) by apply Ho. assert (Hin : In v (outn u)) by apply Ho.
    apply (other_below Ho). apply sub_root; eauto. rewrite <- (Hroot Hu Hin). unfold root.
    rewrite (proj1 (dep_root Hu) Er). reflexivity.
  Qed.
  (* around an edge *)
  Lemma around u v : other u v -> pav u v (P u).
  Proof.
    intros Ho. assert (Hu : u < n) by apply Ho. assert (Hin : In v (outn u)) by apply Ho. assert (Hv : v < n) by eauto.
    apply pa_trans with (root v).
    - apply up_root; auto. now apply other_below.
    - rewrite <- (Hroot Hu Hin), <- (root_eq Hu (sub_parent u)).
      eapply pa_sym; eauto. apply up_root; auto.
      intros Hs. pose proof (sub_dep (HPn Hu) Hs). destruct (dep_pos Hu (other_not_root Ho)). lia.
  Qed.
  Lemma other_same u v : other u v -> same_bicc outn (u, v) (u, P u).
  Proof.
    intros Ho. assert (Hu : u < n) by apply Ho. assert (Hin : In v (outn u)) by apply Ho. assert (Hv : v < n) by eauto.
    destruct (dep_pos Hu (other_not_root Ho)) as [Hd HinP].
    intros c p q Hp Hq Hpc Hqc. simpl in Hp, Hq. destruct (Nat.eq_dec u c) as [->|Hc].
    - destruct Hp as [->| ->]; [congruence|]. destruct Hq as [->| ->]; [congruence|]. now apply around.
    - apply pa_trans with u.
      + destruct Hp as [->| ->]; [now constructor|]. apply pa_edge; auto.
      + destruct Hq as [->| ->]; [now constructor|]. apply pa_edge; auto.
  Qed.
  Lemma other_labels u v : other u v -> same_bicc outn (u, P u) (v, P v).
  Proof.
    intros Ho. assert (Hu : u < n) by apply Ho. assert (Hin : In v (outn u)) by apply Ho. assert (Hv : v < n) by eauto.
    assert (Hne : u <> v) by apply Ho.
    apply same_trans with (f := (u, v)); auto.
    - eapply same_sym; eauto. now apply other_same.
    - intros c p q Hp Hq. apply (other_same (other_sym Ho)); simpl in *; tauto.
  Qed.

  (* -- the critical edges -------------------------------------------------------------------- *)
  Variable crit : nat -> bool.
  Hypothesis Hcrit : forall v, v < n -> P v <> v ->
    (crit v = false <-> exists x y, x < n /\ sub v x /\ other x y /\ ~ sub (P v) y).
  Hypothesis Hcrit0 : forall v, v < n -> P v = v -> crit v = false.
  Variable E : list (nat * nat).
  Hypothesis HE : forall u v, In (u, v) E <-> u < n /\ In v (outn u) /\
    (if v =? P u then crit u = false else if P v =? u then crit v = false else True).

  Lemma E_tree v : v < n -> P v <> v -> crit v = false -> In (v, P v) E.
  Proof.
    intros Hv Hne Hc. apply HE. split; auto. split; [apply Hsym; auto; now apply dep_pos|]. now rewrite Nat.eqb_refl.
  Qed.
  Lemma E_other u v : other u v -> In (u, v) E.
  Proof.
    intros (A & B & C & D & F). apply HE. split; auto. split; auto.
    destruct (Nat.eqb_spec v (P u)); [congruence|]. destruct (Nat.eqb_spec (P v) u); [congruence|]. auto.
  Qed.
  (* what an edge of E is *)
  Lemma E_cases u v : In (u, v) E -> u < n /\ v < n /\
    (u = v \/ other u v \/ (P u = v /\ u <> v /\ crit u = false) \/ (P v = u /\ u <> v /\ crit v = false)).
  Proof.
    intros H. apply HE in H as (Hu & Hin & H). split; auto. split; eauto.
    destruct (Nat.eq_dec u v) as [|Hne]; auto. right.
    destruct (Nat.eqb_spec v (P u)) as [E1|E1]; [right; left; auto|].
    destruct (Nat.eqb_spec (P v) u) as [E2|E2]; [right; right; auto|].
    left. repeat split; auto.
  Qed.

  (* sound: a kept edge joins the same component *)
  Lemma kept_tree v : v < n -> P v <> v -> P (P v) <> P v -> crit v = false ->
    same_bicc outn (v, P v) (P v, P (P v)).
  Proof.
    intros Hv Hne Hne2 Hc. apply Hcrit in Hc as (x & y & Hx & Hs & Ho & Hy); auto.
    set (p := P v) in *. assert (Hp : p < n) by now apply HPn.
    destruct (dep_pos Hv Hne) as [Hd Hin]. destruct (dep_pos Hp Hne2) as [Hd2 Hin2]. fold p in Hd, Hin.
    intros c a b Ha Hb Hac Hbc. simpl in Ha, Hb. destruct (Nat.eq_dec p c) as [<-|Hpc].
    - destruct Ha as [->| ->]; [|congruence]. destruct Hb as [->| ->]; [congruence|].
      assert (Hin' : In y (outn x)) by apply Ho. assert (Hyn : y < n) by eauto.
      apply pa_trans with x.
      { eapply pa_sym; eauto. apply up_past; auto. lia. }
      assert (Hxp : x <> p).
      { intros ->. pose proof (sub_dep Hp Hs). lia. }
      assert (Hyp : y <> p).
      { intros ->. apply Hy, sub_refl. }
      apply pa_trans with y; [now apply pa_edge|].
      apply pa_trans with (root y); [now apply up_root|].
      rewrite <- (Hroot Hx Hin'), <- (root_eq Hx Hs), <- (root_eq Hv (sub_parent v)). fold p.
      rewrite <- (root_eq Hp (sub_parent p)). eapply pa_sym; eauto. apply up_root; auto.
      intros Hs'. pose proof (sub_dep (HPn Hp) Hs'). lia.
    - apply pa_trans with p.
      + destruct Ha as [->| ->]; [|now constructor]. apply pa_edge; auto.
      + destruct Hb as [->| ->]; [now constructor|]. apply pa_edge; auto.
  Qed.

  (* the root is alone *)
  Lemma root_child_critical v : v < n -> P v <> v -> P (P v) = P v -> crit v = true.
  Proof.
    intros Hv Hne Hr. destruct (crit v) eqn:Ec; auto. exfalso.
    apply Hcrit in Ec as (x & y & Hx & Hs & Ho & Hy); auto. apply Hy.
    assert (Hin : In y (outn x)) by apply Ho. apply sub_root; eauto.
    rewrite <- (Hroot Hx Hin), <- (root_eq Hx Hs), <- (root_eq Hv (sub_parent v)).
    unfold root. now rewrite (proj1 (dep_root (HPn Hv)) Hr).
  Qed.
  Lemma root_alone r v : r < n -> P r = r -> connected E r v -> v = r.
  Proof.
    intros Hr Er C. assert (X : r = r <-> v = r); [|tauto].
    apply (@conn_set E (fun z => z = r)) in C; auto. clear v C.
    assert (Hno : forall x, In (x, r) E \/ In (r, x) E -> x = r).
    { intros x Hx. destruct (Nat.eq_dec x r) as [|Hne]; auto. exfalso.
      assert (Hc : x < n /\ (other r x \/ P x = r /\ crit x = false)).
      { destruct Hx as [Hx|Hx]; apply E_cases in Hx as (A & B & [Q|[Q|[Q|Q]]]); try congruence.
        - split; auto. left. now apply other_sym.
        - split; auto. right. tauto.
        - destruct Q as (Q & _). congruence.
        - split; auto.
        - destruct Q as (Q & _). congruence.
        - split; auto. right. tauto. }
      destruct Hc as [Hx' [Ho|[Ho Hc]]].
      - now apply (other_not_root Ho).
      - rewrite (@root_child_critical x) in Hc; congruence. }
    intros x y Hxy. split; intros ->; apply Hno; auto.
  Qed.
  Lemma sound u v : u < n -> P u <> u -> connected E u v ->
    v < n /\ P v <> v /\ same_bicc outn (u, P u) (v, P v).
  Proof.
    intros Hu Hne C.
    assert (Hstep : forall x y, In (x, y) E -> P x <> x -> P y <> y -> same_bicc outn (x, P x) (y, P y)).
    { intros x y Hxy Hx Hy. apply E_cases in Hxy as (A & B & [Q|[Q|[Q|Q]]]).
      - subst. apply same_refl with n; auto. apply Hsym; auto. now apply dep_pos.
      - now apply other_labels.
      - destruct Q as (Q & _ & Q'). subst y. now apply kept_tree.
      - destruct Q as (Q & _ & Q'). subst x. apply same_sym with n; auto; simpl; auto. now apply kept_tree. }
    set (S := fun z => z < n /\ P z <> z /\ same_bicc outn (u, P u) (z, P z) /\ connected E u z).
    enough (HS : S u <-> S v).
    { assert (X : S v); [|unfold S in X; tauto]. apply HS. repeat split; auto.
      - apply same_refl with n; auto. apply Hsym; auto. now apply dep_pos.
      - apply conn_refl. }
    apply conn_set with E; auto. intros x y Hxy.
    assert (Hnr : forall z, z < n -> connected E u z -> P z <> z).
    { intros z Hz Cz Er. apply Hne. assert (u = z); [|congruence]. apply root_alone; auto. now apply conn_sym. }
    pose proof (E_cases Hxy) as (Hx & Hy & _). unfold S. split; intros (A & B & D & F).
    - assert (Cy : connected E u y) by (eapply conn_trans; eauto; now apply conn_edge).
      split; auto. split; auto. split; auto. eapply same_trans; [|eauto|apply Hstep; auto]. simpl. auto.
    - assert (Cx : connected E u x) by (eapply conn_trans; eauto; now apply conn_sym, conn_edge).
      split; auto. split; auto. split; auto. eapply same_trans; [|eauto|].
      + simpl. auto.
      + apply same_sym with n; simpl; auto.
  Qed.

  (* complete *)
  Lemma up_kept a x y : x < n -> sub a x -> other x y -> ~ sub a y -> connected E x a.
  Proof.
    intros Hx [k Hk] Ho Ha.
    assert (X : forall j, j <= k -> connected E x (Nat.iter j P x)).
    { induction j as [|j IH]; intros Hj; simpl; [apply conn_refl|].
      eapply conn_trans; [apply IH; lia|]. set (z := Nat.iter j P x) in *.
      assert (Hz : z < n) by now apply iter_lt.
      destruct (Nat.eq_dec (P z) z) as [Er|Er]; [rewrite Er; apply conn_refl|].
      apply conn_edge, E_tree; auto. apply Hcrit; auto. exists x, y. repeat split; auto; try apply Ho.
      - now exists j.
      - intros Hs. apply Ha. eapply sub_trans; [|exact Hs]. exists (k - S j). subst a.
        change (P z) with (Nat.iter (S j) P x). now apply iter_split. }
    rewrite <- Hk. now apply X.
  Qed.

  (* the highest vertex of a component *)
  Lemma top_exists v : v < n -> P v <> v -> exists t, t < n /\ P t <> t /\ connected E v t /\ ~ connected E v (P t).
  Proof.
    intros Hv Hne.
    destruct (@least_of _ dep (filter (fun z => if conn_dec E v z then true else false) (seq 0 n))) as (t & Ht & Hmin).
    - intros X. assert (Hin : In v []); [|destruct Hin]. rewrite <- X. apply filter_In. split; [apply in_seq; lia|].
      destruct (conn_dec E v v) as [|F]; auto. exfalso. apply F, conn_refl.
    - apply filter_In in Ht as [Hs Ct]. apply in_seq in Hs. destruct (conn_dec E v t) as [Cv|]; [|discriminate].
      assert (Htn : t < n) by lia.
      assert (Hnt : P t <> t).
      { intros Er. apply Hne. assert (v = t); [|congruence]. apply root_alone; auto. now apply conn_sym. }
      exists t. repeat split; auto. intros Cp. specialize (Hmin (P t)).
      destruct (dep_pos Htn Hnt) as [Hd _]. enough (dep t <= dep (P t)) by lia. apply Hmin.
      apply filter_In. split; [apply in_seq; specialize (HPn Htn); lia|]. destruct (conn_dec E v (P t)); auto.
  Qed.

  Section Top.
    Variable v t : nat.
    Hypothesis Hv : v < n.
    Hypothesis Hvr : P v <> v.
    Hypothesis Ht : t < n.
    Hypothesis Htr : P t <> t.
    Hypothesis Hct : connected E v t.
    Let q := P t.
    Hypothesis Hq : ~ connected E v q.
    (* below a child of q that is in the component *)
    Definition below (x : nat) : Prop := exists t', t' < n /\ connected E v t' /\ P t' = q /\ t' <> q /\ sub t' x.

    Lemma q_lt : q < n.
    Proof. unfold q. auto. Qed.
    Lemma child_dep t' : t' < n -> P t' = q -> t' <> q -> dep t' = S (dep q).
    Proof. intros H E1 E2. destruct (@dep_pos t') as [A _]; auto; congruence. Qed.
    Lemma below_dep x : x < n -> below x -> dep q < dep x /\ x <> q.
    Proof.
      intros Hx (t' & A & B & C & D & F). pose proof (sub_dep Hx F). rewrite (child_dep A C D) in H.
      split; [lia|]. intros ->. lia.
    Qed.
    Lemma below_closed x y : x < n -> In y (outn x) -> y <> q -> below x -> below y.
    Proof.
      intros Hx Hin Hyq HB. pose proof HB as (t' & A & B & C & D & F). assert (Hy : y < n) by eauto.
      destruct (@sub_dec t' y Hy) as [Hs|Hs]; [exists t'; auto|].
      assert (Ho : other x y).
      { repeat split; auto.
        - intros ->. auto.
        - intros Ep. destruct (Nat.eq_dec t' x) as [->|Hn]; [congruence|]. apply Hs. rewrite <- Ep. now apply sub_P.
        - intros Ep. apply Hs. apply sub_up. now rewrite Ep. }
      pose proof (up_kept Hx F Ho Hs) as Cx.
      destruct (@sub_dec q y Hy) as [Hqy|Hqy].
      - destruct (@sub_child q y Hy Hqy) as (t2 & A2 & C2 & D2 & F2); [auto|].
        assert (Hs2 : ~ sub t2 x).
        { intros X. apply Hs. assert (t2 = t'); [|congruence].
          apply sub_same; auto; [|rewrite (child_dep A C D), (child_dep A2 C2 D2); auto].
          apply sub_chain with x; auto. rewrite (child_dep A C D), (child_dep A2 C2 D2); auto. }
        exists t2. repeat split; auto.
        apply conn_trans with t'; auto. apply conn_trans with x; [now apply conn_sym|].
        apply conn_trans with y; [now apply conn_edge, E_other|]. apply up_kept with x; auto. now apply other_sym.
      - exfalso. apply Hq. apply conn_trans with t'; auto. rewrite <- C. apply conn_edge, E_tree; auto; [congruence|].
        apply Hcrit; auto; [congruence|]. exists x, y. repeat split; auto; try apply Ho. now rewrite C.
    Qed.
    Lemma below_t : below t.
    Proof. exists t. repeat split; auto. apply sub_refl. Qed.
    (* any component that has a vertex below q, but not q *)
    Lemma below_class w x : below w -> ~ connected E w q -> connected E w x -> w < n -> below x.
    Proof.
      intros Hw Hnq C Hwn. set (S := fun z => below z /\ connected E w z).
      enough (X : S w <-> S x). { apply X. split; auto. apply conn_refl. }
      apply conn_set with E; auto. intros a b Hab. unfold S. pose proof (E_cases Hab) as (Ha & Hb & _).
      apply HE in Hab as Hab'. destruct Hab' as (_ & Hin & _). split; intros [HB HC].
      - assert (Cb : connected E w b) by (eapply conn_trans; eauto; now apply conn_edge). split; auto.
        apply below_closed with a; auto. congruence.
      - assert (Ca : connected E w a) by (eapply conn_trans; eauto; now apply conn_sym, conn_edge). split; auto.
        apply below_closed with b; auto. congruence.
    Qed.
    Lemma below_v : below v.
    Proof.
      apply below_class with t; auto.
      - apply below_t.
      - intros C. apply Hq. eapply conn_trans; eauto.
      - now apply conn_sym.
    Qed.
    (* no kept edge leads from below q to q *)
    Lemma no_kept_to_q x : below x -> In (x, q) E \/ In (q, x) E -> False.
    Proof.
      intros HB Hx.
      assert (Hc : x < n /\ x <> q /\ (other x q \/ (P x = q /\ crit x = false) \/ P q = x)).
      { assert (Hxn : x < n) by (destruct Hx as [Hx|Hx]; apply E_cases in Hx; tauto).
        destruct (below_dep Hxn HB) as [_ Hne]. split; auto. split; auto.
        destruct Hx as [Hx|Hx]; apply E_cases in Hx as (A & B & [Q|[Q|[Q|Q]]]); try tauto; try congruence.
        left. now apply other_sym. }
      destruct Hc as (Hxn & Hne & Hc). destruct HB as (t' & A & B & C & D & F).
      pose proof (sub_dep Hxn F) as Hd. rewrite (child_dep A C D) in Hd. pose proof q_lt as Hqn.
      destruct Hc as [Ho|[[Ep Hcr]|Ep]].
      - assert (Hle : dep x <= S (dep q)). { apply dep_adj; [|apply Ho]. apply Ho. }
        assert (t' = x). { apply sub_same; auto. rewrite (child_dep A C D). lia. }
        subst. destruct Ho as (_ & _ & _ & Ho & _). congruence.
      - assert (t' = x). { apply sub_same; auto. rewrite (child_dep A C D). symmetry. now apply child_dep. }
        subst t'. apply Hq. apply conn_trans with x; auto. rewrite <- Ep. apply conn_edge, E_tree; auto. congruence.
      - pose proof (dep_P Hqn). rewrite Ep in H. lia.
    Qed.
    Lemma class_not_q w : below w -> ~ connected E w q.
    Proof.
      intros HB C. assert (X : (below w /\ True) <-> (below q /\ True)).
      { apply (@conn_set E (fun z => below z /\ True)); auto. intros a b Hab. pose proof (E_cases Hab) as (Ha & Hb & _).
        apply HE in Hab as Hab'. destruct Hab' as (_ & Hin & _). split; intros [H _]; split; auto.
        - destruct (Nat.eq_dec b q) as [->|Hne]; [exfalso; eapply no_kept_to_q; eauto|]. apply below_closed with a; auto.
        - destruct (Nat.eq_dec a q) as [->|Hne]; [exfalso; eapply no_kept_to_q; eauto|]. apply below_closed with b; auto. }
      destruct X as [X _]. destruct X as [X _]; auto. apply (below_dep q_lt) in X. lia.
    Qed.
    Lemma same_below w : w < n -> P w <> w -> same_bicc outn (v, P v) (w, P w) -> below w.
    Proof.
      intros Hw Hwr HS. pose proof below_v as HBv. destruct (below_dep Hv HBv) as [_ Hvq].
      assert (Hpath : forall x, pav q v x -> below x /\ x < n).
      { intros x Hx. induction Hx as [|u x Hx [IH1 IH2] Hin Hxq]; auto. split; eauto. now apply below_closed with u. }
      destruct (Nat.eq_dec w q) as [->|Hwq].
      - exfalso. destruct (Hpath (P q)) as [HB _]; [apply HS; simpl; auto|].
        destruct (below_dep (HPn q_lt) HB). pose proof (dep_P q_lt). lia.
      - apply Hpath. apply HS; simpl; auto.
    Qed.
  End Top.

  Theorem components v w : v < n -> w < n -> P v <> v -> P w <> w ->
    (connected E v w <-> same_bicc outn (v, P v) (w, P w)).
  Proof.
    intros Hv Hw Hvr Hwr. split; [intros C; now apply sound|]. intros HS.
    destruct (conn_dec E v w) as [C|C]; auto. exfalso.
    destruct (top_exists Hv Hvr) as (t & Ht & Htr & Ct & Cq).
    destruct (top_exists Hw Hwr) as (s & Hs & Hsr & Cs & Cq').
    pose proof (@same_below v t Hv Hvr Ht Htr Ct Cq w Hw Hwr HS) as HB.
    assert (HS' : same_bicc outn (w, P w) (v, P v)). { apply same_sym with n; simpl; auto. }
    pose proof (@same_below w s Hw Hwr Hs Hsr Cs Cq' v Hv Hvr HS') as HB'.
    assert (N1 : ~ connected E w (P t)) by (apply class_not_q with v; auto).
    assert (N2 : ~ connected E v (P s)) by (apply class_not_q with w; auto).
    assert (X1 : below v t s) by (apply below_class with w; auto).
    assert (X2 : below w s t) by (apply below_class with v; auto).
    destruct X1 as (t1 & A1 & B1 & C1 & D1 & F1).
    destruct X2 as (s1 & A2 & B2 & C2 & D2 & F2).
    assert (Ht1 : dep t1 = dep t). { rewrite (proj1 (dep_pos Ht Htr)). rewrite <- C1. apply dep_pos; auto. congruence. }
    assert (Hs1 : dep s1 = dep s). { rewrite (proj1 (dep_pos Hs Hsr)). rewrite <- C2. apply dep_pos; auto. congruence. }
    assert (N3 : dep t1 <> dep s).
    { intros Ed. assert (t1 = s) by (apply sub_same; auto). subst. apply C. eapply conn_trans; eauto. now apply conn_sym. }
    pose proof (sub_dep Hs F1). pose proof (sub_dep Ht F2). lia.
  Qed.
End Forest.
