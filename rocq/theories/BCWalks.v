(* Counting walks, for C59. *)
From Coq Require Import ZArith QArith Qcanon Permutation.
From Verif Require Import Base ListUtil BKSpec BKProofs FASpec FAProofs EMSpec BCSpec.
Local Open Scope nat_scope.

Lemma sum_app l1 l2 : list_sum (l1 ++ l2) = list_sum l1 + list_sum l2.
Proof. unfold list_sum. induction l1; simpl; auto. rewrite IHl1. lia. Qed.
Lemma sum_mul {A} (f : A -> nat) c l : list_sum (map (fun x => f x * c) l) = list_sum (map f l) * c.
Proof. induction l; simpl; auto. rewrite IHl. lia. Qed.
Lemma sum_add {A} (f g : A -> nat) l : list_sum (map (fun x => f x + g x) l) = list_sum (map f l) + list_sum (map g l).
Proof. induction l; simpl; auto. rewrite IHl. lia. Qed.
Lemma sum_0 {A} (f : A -> nat) l : (forall x, In x l -> f x = 0) -> list_sum (map f l) = 0.
Proof. induction l; simpl; intros H; auto. rewrite H, IHl; auto. Qed.
Lemma sum_exch {A B} (f : A -> B -> nat) l1 l2 :
  list_sum (map (fun x => list_sum (map (f x) l2)) l1) = list_sum (map (fun y => list_sum (map (fun x => f x y) l1)) l2).
Proof.
  induction l1; simpl.
  - symmetry. apply sum_0. auto.
  - rewrite IHl1, <- sum_add. reflexivity.
Qed.
Lemma sum_one (f : nat -> nat) u l : NoDup l -> In u l -> (forall x, In x l -> x <> u -> f x = 0) -> list_sum (map f l) = f u.
Proof.
  intros ND Hin H. induction ND as [|a l Ha ND IH]; [destruct Hin|]. simpl. destruct Hin as [->|Hin].
  - rewrite sum_0; [lia|]. intros x Hx. apply H; [now right|]. intros ->. auto.
  - rewrite IH; auto; [|intros; apply H; auto; now right]. rewrite (H a); [lia|now left|]. intros ->. auto.
Qed.
Lemma len_filter_flat {A B} (f : B -> bool) (g : A -> list B) l :
  length (filter f (flat_map g l)) = list_sum (map (fun x => length (filter f (g x))) l).
Proof. induction l; simpl; auto. rewrite filter_app, app_length, IHl. auto. Qed.
Lemma len_filter_map {A B} (f : B -> bool) (g : A -> B) l : length (filter f (map g l)) = length (filter (fun x => f (g x)) l).
Proof. induction l; simpl; auto. destruct (f (g a)); simpl; auto. Qed.

Section W.
  Variable outn : nat -> list nat.
  Definition W (k u t : nat) : nat := length (walks_to outn k u t).
  Lemma walks_ne k u p : In p (walks outn k u) -> p <> [].
  Proof. destruct k; simpl; [intros [<-|[]]; discriminate|]. intros H. apply in_flat_map in H as (v & _ & H). apply in_map_iff in H as (q & <- & _). discriminate. Qed.
  Lemma walks_hd k u p : In p (walks outn k u) -> nth 0 p 0 = u.
  Proof. destruct k; simpl; [intros [<-|[]]; auto|]. intros H. apply in_flat_map in H as (v & _ & H). apply in_map_iff in H as (q & <- & _). auto. Qed.
  Lemma walks_len k : forall u p, In p (walks outn k u) -> length p = S k.
  Proof.
    induction k; intros u p; simpl; [intros [<-|[]]; auto|]. intros H. apply in_flat_map in H as (v & _ & H). apply in_map_iff in H as (q & <- & H). simpl. f_equal. eauto.
  Qed.
  Lemma last_cons (u : nat) p : p <> [] -> last (u :: p) 0 = last p 0.
  Proof. destruct p; [congruence|reflexivity]. Qed.
  Lemma W_0 u t : W 0 u t = if u =? t then 1 else 0.
  Proof. unfold W, walks_to. simpl. now destruct (u =? t). Qed.
  Lemma W_S k u t : W (S k) u t = list_sum (map (fun v => W k v t) (outn u)).
  Proof.
    unfold W, walks_to. simpl. rewrite len_filter_flat. f_equal. apply map_ext. intros v. rewrite len_filter_map. f_equal. apply filter_ext_in'. intros p Hp.
    rewrite last_cons; auto. eapply walks_ne; eauto.
  Qed.
  (* walks that are at v after i edges *)
  Lemma W_mid i j v t : forall u, length (filter (fun p => (nth i p 0 =? v) && (last p 0 =? t)) (walks outn (i + j) u)) = W i u v * W j v t.
  Proof.
    induction i; intros u.
    - rewrite W_0. simpl. destruct (Nat.eqb_spec u v) as [->|Hne].
      + unfold W, walks_to. rewrite Nat.mul_1_l. f_equal. apply filter_ext_in'. intros p Hp. apply walks_hd in Hp. rewrite Hp, Nat.eqb_refl. auto.
      + rewrite filter_none; auto. intros p Hp. apply walks_hd in Hp. rewrite Hp. apply Nat.eqb_neq in Hne. rewrite Hne. auto.
    - change (S i + j) with (S (i + j)). rewrite W_S. cbn [walks]. rewrite len_filter_flat, <- sum_mul. f_equal. apply map_ext. intros w. rewrite len_filter_map, <- IHi. f_equal.
      apply filter_ext_in'. intros p Hp. rewrite last_cons; auto. eapply walks_ne; eauto.
  Qed.
  Lemma walk_first u k w : walk outn u (S k) w -> exists v, In v (outn u) /\ walk outn v k w.
  Proof.
    intros H. remember (S k) as j eqn:E. revert k E. induction H as [|j v w H IH Hw]; intros k E; [discriminate|]. injection E as ->.
    destruct k.
    - inversion H; subst. exists w. split; auto. constructor.
    - destruct (IH k eq_refl) as (x & Hx & Hk). exists x. split; auto. econstructor; eauto.
  Qed.
  Lemma walk_cons u v k w : In v (outn u) -> walk outn v k w -> walk outn u (S k) w.
  Proof. intros H1 H2. apply (@walk_app outn u 1 v k w); auto. now apply walk_1. Qed.
  Lemma W_walk k : forall u t, 0 < W k u t <-> walk outn u k t.
  Proof.
    induction k; intros u t.
    - rewrite W_0. destruct (Nat.eqb_spec u t) as [->|Hne]; split; intros H; try lia; try constructor. inversion H. congruence.
    - rewrite W_S. split.
      + intros H. destruct (list_sum_map_pos (fun v => W k v t) (outn u) H) as (v & Hv & Hp). apply (walk_cons _ Hv), IHk, Hp.
      + intros H. apply walk_first in H as (v & Hv & Hk). apply IHk in Hk. clear -Hv Hk. induction (outn u) as [|a l IH]; [destruct Hv|].
        simpl. destruct Hv as [->|Hv]; [lia|]. specialize (IH Hv). lia.
  Qed.
  Lemma W_none k u t : ~ walk outn u k t -> W k u t = 0.
  Proof. intros H. destruct (W k u t) eqn:E; auto. exfalso. apply H, W_walk. lia. Qed.
  (* a vertex on a walk splits it *)
  Lemma walks_split k : forall u p i, In p (walks outn k u) -> i <= k -> walk outn u i (nth i p 0) /\ walk outn (nth i p 0) (k - i) (last p 0).
  Proof.
    induction k; intros u p i Hp Hi.
    - destruct Hp as [<-|[]]. replace i with 0 by lia. simpl. split; constructor.
    - simpl in Hp. apply in_flat_map in Hp as (v & Hv & Hp). apply in_map_iff in Hp as (q & <- & Hp). destruct i.
      + simpl nth. split; [constructor|]. rewrite last_cons by (eapply walks_ne; eauto). apply (walk_cons _ Hv).
        destruct (IHk v q 0 Hp ltac:(lia)) as [_ X]. apply walks_hd in Hp. rewrite Hp, Nat.sub_0_r in X. exact X.
      + simpl nth. rewrite last_cons by (eapply walks_ne; eauto). destruct (IHk v q i Hp ltac:(lia)) as [X Y]. split; auto. now apply (walk_cons _ Hv).
  Qed.

  Variable n : nat.
  Hypothesis Hout : forall u v, u < n -> In v (outn u) -> v < n.
  Lemma wlt u k v : u < n -> walk outn u k v -> v < n.
  Proof. intros Hu H. induction H; eauto. Qed.
  Lemma W_app i j t : forall u, u < n -> W (i + j) u t = list_sum (map (fun x => W i u x * W j x t) (seq 0 n)).
  Proof.
    induction i; intros u Hu.
    - rewrite (@sum_one _ u); [rewrite W_0, Nat.eqb_refl; simpl; lia|apply seq_NoDup|apply in_seq; lia|].
      intros x _ Hx. rewrite W_0. destruct (Nat.eqb_spec u x); [congruence|reflexivity].
    - simpl. rewrite W_S. rewrite (map_ext_in _ (fun v => list_sum (map (fun x => W i v x * W j x t) (seq 0 n)))) by (intros v Hv; apply IHi; eauto).
      rewrite sum_exch. f_equal. apply map_ext. intros x. rewrite sum_mul, W_S. auto.
  Qed.
  (* the last edge *)
  Lemma W_1 x t : W 1 x t = count_occ Nat.eq_dec (outn x) t.
  Proof.
    rewrite W_S. induction (outn x) as [|a l IH]; auto. simpl. rewrite W_0, IH. destruct (Nat.eq_dec a t) as [->|H]; [now rewrite Nat.eqb_refl|].
    apply Nat.eqb_neq in H. now rewrite H.
  Qed.
  Lemma W_last k u t : u < n -> W (S k) u t = list_sum (map (fun x => W k u x * count_occ Nat.eq_dec (outn x) t) (seq 0 n)).
  Proof. intros Hu. replace (S k) with (k + 1) by lia. rewrite W_app; auto. f_equal. apply map_ext. intros x. now rewrite W_1. Qed.

  (* distances *)
  Lemma walk_prev u k v : walk outn u (S k) v -> exists x, walk outn u k x /\ In v (outn x).
  Proof. intros H. inversion H; subst. eauto. Qed.
  Lemma dist_prev u k v : dist outn u v (S k) -> exists x, dist outn u x k /\ In v (outn x).
  Proof.
    intros [H Hm]. apply walk_prev in H as (x & Hx & Hv). exists x. split; auto. split; auto. intros j Hj Hw. apply (Hm (S j)); [lia|]. econstructor; eauto.
  Qed.
  Lemma dist_ex u v : reachable outn u v -> exists k, dist outn u v k.
  Proof.
    intros [k H]. revert H. induction k as [k IH] using lt_wf_ind. intros H.
    destruct (forallb (fun j => W j u v =? 0) (seq 0 k)) eqn:E.
    - exists k. split; auto. intros j Hj X. rewrite forallb_forall in E. specialize (E j ltac:(apply in_seq; lia)). apply Nat.eqb_eq in E. apply W_walk in X. lia.
    - assert (exists j, In j (seq 0 k) /\ W j u v <> 0) as (j & Hj & Hn).
      { clear -E. induction (seq 0 k) as [|a l IH]; [discriminate|]. simpl in E. destruct (Nat.eqb_spec (W a u v) 0).
        - destruct IH as (j & Hj & H); auto. exists j. split; auto. now right.
        - exists a. split; auto. now left. }
      apply in_seq in Hj. apply (IH j); [lia|]. apply W_walk. lia.
  Qed.
  Lemma dist_small u v k : u < n -> dist outn u v k -> k < n.
  Proof.
    intros Hu. enough (forall k v, dist outn u v k -> exists l, NoDup l /\ length l = S k /\ forall x, In x l -> x < n /\ exists j, j <= k /\ dist outn u x j) as X.
    { intros H. destruct (X k v H) as (l & ND & HL & HI). assert (length l <= length (seq 0 n)); [|rewrite seq_length in *; lia].
      apply NoDup_incl_length; auto. intros x Hx. apply in_seq. destruct (HI x Hx). lia. }
    clear k v. induction k; intros v H.
    - exists [v]. split; [repeat constructor; auto|]. split; auto. intros x [<-|[]]. split; [eapply wlt; [exact Hu|apply H]|]. exists 0. auto.
    - destruct (dist_prev H) as (x & Hx & _). destruct (IHk x Hx) as (l & ND & HL & HI). exists (v :: l). split; [|split].
      + constructor; auto. intros Hin. apply HI in Hin as (_ & j & Hj & Hd). pose proof (dist_inj H Hd). lia.
      + simpl. lia.
      + intros y [<-|Hy]; [split; [eapply wlt; [exact Hu|apply H]|exists (S k); auto]|]. destruct (HI y Hy) as (A & j & Hj & B). split; auto. exists j. split; auto.
  Qed.
  Lemma level_dist u t k : u < n -> (level n outn u t = Some k <-> dist outn u t k).
  Proof.
    intros Hu. unfold level. split.
    - intros H. assert (Hf : forall a l, find (fun k => negb (length (walks_to outn k u t) =? 0)) (seq a l) = Some k -> 0 < W k u t /\ a <= k /\ forall j, a <= j < k -> W j u t = 0).
      { clear. intros a l. revert a. induction l; intros a; [discriminate|]. simpl. fold (W a u t). destruct (Nat.eqb_spec (W a u t) 0) as [E|E]; simpl.
        - intros H. apply IHl in H as (A & B & C). split; auto. split; [lia|]. intros j Hj. destruct (Nat.eq_dec j a) as [->|]; auto. apply C. lia.
        - intros H. injection H as ->. split; [lia|]. split; auto. intros; lia. }
      apply Hf in H as (A & _ & C). split; [now apply W_walk|]. intros j Hj X. apply W_walk in X. rewrite C in X by lia. lia.
    - intros Hd. pose proof (dist_small Hu Hd) as Hk. destruct Hd as [Hw Hm].
      assert (Hf : forall a l, a <= k < a + l -> find (fun k => negb (length (walks_to outn k u t) =? 0)) (seq a l) = Some k).
      { clear Hk. intros a l. revert a. induction l; intros a Ha; [lia|]. simpl. fold (W a u t). destruct (Nat.eq_dec a k) as [->|Hne].
        - apply W_walk in Hw. destruct (Nat.eqb_spec (W k u t) 0); [lia|]. auto.
        - rewrite W_none by (apply Hm; lia). simpl. apply IHl. lia. }
      apply Hf. lia.
  Qed.
  Lemma level_none u t : u < n -> (level n outn u t = None <-> ~ reachable outn u t).
  Proof.
    intros Hu. split.
    - intros H R. destruct (dist_ex R) as [k Hk]. apply level_dist in Hk; auto. congruence.
    - intros H. destruct (level n outn u t) as [k|] eqn:E; auto. exfalso. apply H. apply level_dist in E; auto. exists k. apply E.
  Qed.
  (* how many shortest walks visit v *)
  Lemma through_count u v t i k : u < n -> dist outn u v i -> dist outn u t k ->
    length (through v (shortest_walks n outn u t)) = if i <=? k then W i u v * W (k - i) v t else 0.
  Proof.
    intros Hu Hv Ht. unfold shortest_walks. apply level_dist in Ht as E; auto. rewrite E. unfold through.
    assert (Hpos : forall p, In p (walks_to outn k u t) -> (mem v p = true <-> i <= k /\ nth i p 0 = v)).
    { intros p Hp. apply filter_In in Hp as [Hp Hl]. apply Nat.eqb_eq in Hl. pose proof (walks_len _ _ _ Hp) as HL. rewrite mem_In. split.
      - intros Hin. apply (In_nth _ _ 0) in Hin as (q & Hq & Eq). rewrite HL in Hq. destruct (@walks_split k u p q Hp ltac:(lia)) as [A B].
        rewrite Eq, Hl in *. destruct Hv as [Hv Hvm]. destruct Ht as [Ht Htm].
        assert (i <= q) by (destruct (Nat.le_gt_cases i q); auto; exfalso; eapply Hvm; eauto).
        assert (q <= i). { destruct (Nat.le_gt_cases q i); auto. exfalso. apply (Htm (i + (k - q))); [lia|]. eapply walk_app; eauto. }
        assert (q = i) as -> by lia. split; [lia|auto].
      - intros [Hi <-]. apply nth_In. lia. }
    destruct (Nat.leb_spec i k) as [Hik|Hik].
    - rewrite <- W_mid. replace (i + (k - i)) with k by lia. unfold walks_to. clear -Hpos Hik. unfold walks_to in Hpos. induction (walks outn k u) as [|p l IH]; auto.
      simpl. simpl in Hpos. destruct (last p 0 =? t); simpl.
      + specialize (Hpos p (or_introl eq_refl)) as Hp. rewrite Bool.andb_true_r. assert (IH' := IH (fun q Hq => Hpos q (or_intror Hq))).
        destruct (mem v p); destruct (Nat.eqb_spec (nth i p 0) v); simpl; auto; exfalso; destruct Hp as [H1 H2].
        * destruct (H1 eq_refl). auto.
        * discriminate (H2 (conj Hik e)).
      + rewrite Bool.andb_false_r. auto.
    - rewrite filter_none; auto. intros p Hp. destruct (mem v p) eqn:Em; auto. apply Hpos in Em; auto. lia.
  Qed.
  Lemma total_count u t k : u < n -> dist outn u t k -> length (shortest_walks n outn u t) = W k u t.
  Proof. intros Hu H. unfold shortest_walks. apply level_dist in H; auto. now rewrite H. Qed.
End W.
