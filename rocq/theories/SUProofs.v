(* One step of a call of the union-find spanning forests. *)
From Verif Require Import Base UFSpec JATree SUModel.
Unset Strict Implicit.

Section SU.
  Variable n : nat.
  Variable o : unite_option.

  Definition key (x : nat) : nat := n - x.
  Definition good (m : mem) : Prop := forall x, x < n -> pa m x <= x.
  Lemma good_tree m : good m -> tree n key (pa m).
  Proof. intros G x Hx. specialize (G x Hx). unfold key, kl. split; [lia|]. split; [lia|]. lia. Qed.
  Lemma kl_lt a b : a < n -> b < a -> kl key a b.
  Proof. unfold kl, key. lia. Qed.
  Lemma rooted_le P x r : (forall x, x < n -> P x <= x) -> rooted P x r -> x < n -> r <= x.
  Proof. intros G R. induction R as [x E|x r E R IH]; intros Hx; auto. specialize (G x Hx). assert (P x < n) by lia. specialize (IH H). lia. Qed.
  (* a smaller vertex in the tree: not a root *)
  Lemma lower m a b : good m -> a < n -> b < a -> same (pa m) a b -> pa m a <> a.
  Proof.
    intros G Ha Hb (r & A & B) E. pose proof (rooted_le G B). rewrite (rooted_det A (r_here E)) in H. lia.
  Qed.

  Definition owned : bool := match o with OND _ | ORemLock _ _ => true | _ => false end.
  Definition nd : bool := match o with OND _ => true | _ => false end.
  (* was a root, and is one unless its hook is set *)
  Definition W (m : mem) (a : nat) : Prop := nd = true -> pa m a = a \/ aux m a <> None.

  Record rely (t : nat) (m m' : mem) : Prop := {
    r_non : forall x, x < n -> pa m x <> x -> pa m' x <> x;
    r_same : forall x y, x < n -> y < n -> same (pa m) x y -> same (pa m') x y;
    r_own : forall a, a < n -> aux m a = Some t -> aux m' a = Some t /\ ed m' a = ed m a /\ (pa m a = a -> pa m' a = a);
    r_hook : nd = true -> forall a, a < n -> aux m a <> None -> aux m' a <> None;
    r_root : nd = true -> forall a, a < n -> pa m a = a -> pa m' a = a \/ aux m' a <> None }.
  Lemma rely_W t m m' a : rely t m m' -> a < n -> W m a -> W m' a.
  Proof.
    intros R Ha H Hn. destruct (H Hn) as [E|E]; [now apply (r_root R)|right; now apply (r_hook R)].
  Qed.

  (* the trees and the roots stay *)
  Definition kept (m m' : mem) : Prop :=
    (forall x, x < n -> forall r, rooted (pa m) x r -> rooted (pa m') x r) /\
    (forall x, x < n -> (pa m' x = x <-> pa m x = x)).
  Lemma kept_refl m : kept m m.
  Proof. split; [auto|tauto]. Qed.
  Lemma kept_same m m' x y : kept m m' -> x < n -> y < n -> same (pa m) x y -> same (pa m') x y.
  Proof. intros [K _] Hx Hy (r & A & B). exists r. auto. Qed.
  Lemma kept_rely t m m' : kept m m' -> ed m' = ed m -> aux m' = aux m -> rely t m m'.
  Proof.
    intros K E1 E2. pose proof K as [K1 K2]. split.
    - intros x Hx H H'. apply H. now apply K2.
    - intros. eapply kept_same; eauto.
    - intros a Ha H. rewrite E1, E2. repeat split; auto. now apply K2.
    - intros _ a Ha. now rewrite E2.
    - intros _ a Ha E. left. now apply K2.
  Qed.

  (* writing a smaller vertex of the tree *)
  Lemma write_kept m a b : good m -> a < n -> b < a -> same (pa m) a b ->
    kept m (set_pa m a b) /\ good (set_pa m a b).
  Proof.
    intros G Ha Hb S. pose proof (lower G Ha Hb S) as Hn. split; [split|].
    - intros x Hx r R. apply (@split_rooted n key (pa m) (fset (pa m) a b) a b (good_tree G)); auto; [lia|now apply kl_lt| |].
      + now rewrite fset_same.
      + intros z Hz. now rewrite fset_other.
    - intros x Hx. simpl. destruct (Nat.eq_dec x a) as [->|Hxa]; [rewrite fset_same; lia|now rewrite fset_other].
    - intros x Hx. simpl. destruct (Nat.eq_dec x a) as [->|Hxa]; [rewrite fset_same; lia|rewrite fset_other; auto].
  Qed.
  Lemma cas_kept m a v b : good m -> a < n -> b < a -> same (pa m) a b ->
    kept m (cas m a v b) /\ good (cas m a v b) /\ ed (cas m a v b) = ed m /\ aux (cas m a v b) = aux m.
  Proof.
    intros G Ha Hb S. unfold cas. destruct (pa m a =? v).
    - destruct (write_kept G Ha Hb S). auto.
    - split; [apply kept_refl|auto].
  Qed.

  Lemma up_same m a x : good m -> a < n -> same (pa m) a x -> pa m a < n /\ same (pa m) (pa m a) x.
  Proof.
    intros G Ha S. split; [specialize (G a Ha); lia|]. eapply same_trans; [|exact S]. apply same_sym. eapply same_up; eauto using good_tree.
  Qed.

  (* -- find and splice ------------------------------------------------------------------------ *)
  Definition fok (m : mem) (x : nat) (f : fstate) : Prop :=
    match f with
    | N0 i | N1 i | C0 i | S0 _ i | S3 _ i => i < n /\ same (pa m) i x
    | C1 i j => i < n /\ j <= i /\ same (pa m) i x /\ same (pa m) j x /\ pa m j <> j
    | C2 i j => i < n /\ j < i /\ same (pa m) i x /\ same (pa m) j x
    | C3 i j => i < n /\ j < n /\ same (pa m) i x /\ same (pa m) j x /\ W m j
    | C4 i j tmp => i < n /\ j < tmp /\ tmp <= i /\ same (pa m) i x /\ same (pa m) j x /\ same (pa m) tmp x /\ W m j
    | S1 _ i v => i < n /\ v <= i /\ same (pa m) i x /\ same (pa m) v x
    | S2 _ i v w => i < n /\ w < v /\ v <= i /\ same (pa m) i x /\ same (pa m) v x /\ same (pa m) w x
    end.
  (* not one of the single steps *)
  Definition fopt (f : fstate) : Prop :=
    match f with
    | S0 h _ | S1 h _ _ | S2 h _ _ _ | S3 h _ => h = HSplit \/ h = HHalve
    | _ => True
    end.
  Lemma fok_addr m x f : fok m x f -> faddr f < n.
  Proof. destruct f; simpl; intuition lia. Qed.
  Lemma fok_rely t m m' x f : rely t m m' -> x < n -> fok m x f -> fok m' x f.
  Proof.
    intros R Hx.
    assert (A : forall a, a < n -> same (pa m) a x -> same (pa m') a x) by (intros; now apply (r_same R)).
    assert (B : forall a, a < n -> W m a -> W m' a) by (intros; eapply rely_W; eauto).
    destruct f; simpl; try (intuition auto; fail).
    - intros (H1 & H2 & H3 & H4 & H5). repeat (split; [auto; apply A; auto; lia|]). apply (r_non R); auto. lia.
    - intros (H1 & H2 & H3 & H4). repeat (split; auto). apply A; auto. lia.
    - intros (H1 & H2 & H3 & H4 & H5 & H6 & H7). repeat (split; auto); [apply A|apply A|apply B]; auto; lia.
    - intros (H1 & H2 & H3 & H4). repeat (split; auto). apply A; auto. lia.
    - intros (H1 & H2 & H3 & H4 & H5 & H6). repeat (split; auto); apply A; auto; lia.
  Qed.
  Lemma find_ok m x f i : i < n -> same (pa m) i x -> fok m x (find f i) /\ fopt (find f i).
  Proof. intros Hi S. destruct f; simpl; auto. Qed.
  Lemma splice_ok m x s i : i < n -> same (pa m) i x -> fok m x (splice s i).
  Proof. intros Hi S. destruct s; simpl; auto. Qed.

  Lemma fstep_ok m x f m' z : good m -> x < n -> fok m x f -> fstep m f = (m', z) ->
    good m' /\ kept m m' /\ ed m' = ed m /\ aux m' = aux m /\
    match z with
    | inl f' => fok m' x f' /\ (fopt f -> fopt f')
    | inr r => r < n /\ same (pa m') r x /\ (fopt f -> W m' r)
    end.
  Proof.
    intros G Hx F H. pose proof (kept_refl m) as K.
    destruct f as [i|i|i|i j|i j|i j|i j tmp|h i|h i v|h i v w|h i]; cbn [fstep] in H; cbn [fok] in F.
    - injection H as <- <-. do 4 (split; [auto|]). destruct (Nat.eqb_spec i (pa m i)); simpl; intuition auto. unfold W. intuition auto.
    - injection H as <- <-. do 4 (split; [auto|]). destruct F as [A B]. simpl. split; auto. now apply up_same.
    - injection H as <- <-. do 4 (split; [auto|]). destruct F as [A B]. destruct (Nat.eqb_spec (pa m i) i); simpl; [|intuition auto].
      unfold W. intuition auto.
    - injection H as <- <-. do 4 (split; [auto|]). destruct F as (A & B & C & D & E). simpl.
      assert (Hj : j < n) by lia. destruct (up_same G Hj D). specialize (G j Hj). split; auto. repeat (split; auto). lia.
    - injection H as <- <-. do 4 (split; [auto|]). destruct F as (A & B & C & D). destruct (Nat.eqb_spec (pa m j) j); simpl.
      + split; auto. repeat (split; auto). lia. unfold W. auto.
      + split; auto. repeat (split; auto). lia.
    - injection H as <- <-. do 4 (split; [auto|]). destruct F as (A & B & C & D & E). destruct (Nat.ltb_spec j (pa m i)) as [Hl|Hl]; simpl; auto.
      destruct (up_same G A C). specialize (G i A). split; auto. repeat (split; auto).
    - injection H as <- <-. destruct F as (A & B & C & D & E & F & I). 
      assert (S : same (pa m) i j) by (eapply same_trans; [exact D|now apply same_sym]).
      destruct (write_kept G A (b := j)) as [K1 K2]; auto; [lia|]. do 4 (split; [auto|]). split; [|simpl; auto]. simpl.
      split; [lia|]. split; [lia|]. split; [apply (@kept_same m (set_pa m i j)); auto; lia|]. split; [apply (@kept_same m (set_pa m i j)); auto; lia|].
      intros Hn. destruct (I Hn) as [I1|I1]; [left|right; auto]. simpl. rewrite fset_other; auto. lia.
    - injection H as <- <-. do 4 (split; [auto|]). destruct F as [A B]. simpl. destruct (up_same G A B). specialize (G i A). intuition auto.
    - injection H as <- <-. do 4 (split; [auto|]). destruct F as (A & B & C & D). assert (Hv : v < n) by lia.
      destruct (Nat.eqb_spec v (pa m v)) as [E|E]; simpl.
      + split; auto. split; auto. intros _ _. auto.
      + destruct (up_same G Hv D). specialize (G v Hv). split; auto. repeat (split; auto). lia.
    - destruct F as (A & B & C & D & E & F).
      assert (S : same (pa m) i w) by (eapply same_trans; [exact D|now apply same_sym]).
      destruct (@cas_kept m i v w) as (K1 & K2 & K3 & K4); auto; [lia|].
      assert (Hs : forall a, a < n -> same (pa m) a x -> same (pa (cas m i v w)) a x) by (intros; eapply kept_same; eauto).
      destruct h; injection H as <- <-; do 4 (split; [auto|]); simpl.
      + split; auto. split; [lia|]. apply Hs; auto. lia.
      + split; auto.
      + split; [lia|]. split; [apply Hs; auto; lia|]. intros [X|X]; discriminate.
      + split; [lia|]. split; [apply Hs; auto; lia|]. intros [X|X]; discriminate.
    - injection H as <- <-. do 4 (split; [auto|]). destruct F as [A B]. simpl. split; auto. now apply up_same.
  Qed.

  (* -- a call ------------------------------------------------------------------------------- *)
  (* a is in the tree of one end, b in that of the other *)
  Definition ends (m : mem) (x y a b : nat) : Prop :=
    same (pa m) a x /\ same (pa m) b y \/ same (pa m) a y /\ same (pa m) b x.
  Lemma ends_sym m x y a b : ends m x y a b -> ends m x y b a.
  Proof. unfold ends. tauto. Qed.
  Lemma ends_joined m x y a b : ends m x y a b -> same (pa m) a b -> same (pa m) x y.
  Proof.
    intros [[A B]|[A B]] S; [|apply same_sym].
    - eapply same_trans; [apply same_sym; exact A|]. eapply same_trans; eauto.
    - eapply same_trans; [apply same_sym; exact A|]. eapply same_trans; eauto.
  Qed.
  Lemma ends_move m x y a b a' b' : ends m x y a b -> same (pa m) a' a -> same (pa m) b' b -> ends m x y a' b'.
  Proof. intros [[A B]|[A B]] S T; [left|right]; split; eapply same_trans; eauto. Qed.

  Definition cas_mode : Prop := owned = false.
  Definition lock_mode : Prop := owned = true /\ nd = false.
  Definition tok (t : nat) (e : nat * nat) (m : mem) (s : tstate) : Prop :=
    let '(x, y) := e in
    match s with
    | U1 v f => cas_mode /\ v < n /\ same (pa m) v y /\ fok m x f
    | U2 u f => cas_mode /\ u < n /\ same (pa m) u x /\ fok m y f
    | U3 u v | U4 u v => cas_mode /\ u < n /\ v < n /\ u <> v /\ same (pa m) u x /\ same (pa m) v y
    | WE a => cas_mode /\ a < n /\ same (pa m) x y
    | E0 u v | E1 u v => cas_mode /\ u < n /\ v < u /\ ends m x y u v
    | E2 u v => cas_mode /\ u < n /\ v < u /\ ends m x y u v /\ pa m u <> u
    | E3 u v z => cas_mode /\ u < n /\ v < u /\ ends m x y u v /\ z < u /\ same (pa m) u z
    | E4 u v z w => cas_mode /\ u < n /\ v < u /\ ends m x y u v /\ w < u /\ same (pa m) u w
    | D1 v f => nd = true /\ v < n /\ (fok m x f /\ same (pa m) v y \/ fok m y f /\ same (pa m) v x) /\ fopt f
    | D2 u f => nd = true /\ u < n /\ (fok m x f /\ same (pa m) u y \/ fok m y f /\ same (pa m) u x) /\ W m u /\ fopt f
    | D3 u v | D4 u v => nd = true /\ u < n /\ v < u /\ ends m x y u v /\ W m u
    | D5 u v => nd = true /\ u < n /\ v < u /\ ends m x y u v /\ aux m u = Some t /\ pa m u = u
    | D6 u v => nd = true /\ u < n /\ v < u /\ ends m x y u v /\ aux m u = Some t /\ pa m u = u /\ ed m u = Some (x, y)
    | R0 rx ry | R2 rx ry | R4 rx ry | R5 rx ry => lock_mode /\ rx < n /\ ry < n /\ ends m x y rx ry
    | R1 rx ry a => lock_mode /\ rx < n /\ ry < n /\ ends m x y rx ry /\ a < n /\ same (pa m) a rx
    | R3 rx ry _ => lock_mode /\ rx < n /\ ry < n /\ ends m x y rx ry
    | R6 rx ry => lock_mode /\ rx < n /\ ry < n /\ ends m x y rx ry /\ aux m rx = Some t
    | R7 rx ry py => lock_mode /\ rx < n /\ ry < n /\ ends m x y rx ry /\ aux m rx = Some t /\ py < n /\ same (pa m) py ry
    | R8 rx ry py => lock_mode /\ rx < n /\ ry < n /\ ends m x y rx ry /\ aux m rx = Some t /\ py < rx /\ same (pa m) py ry /\ pa m rx = rx
    | R9 rx ry py => lock_mode /\ rx < n /\ ry < n /\ ends m x y rx ry /\ aux m rx = Some t /\ py < rx /\ same (pa m) py ry /\ pa m rx = rx /\
        ed m rx = Some (x, y)
    | R10 rx ry => lock_mode /\ rx < n /\ ry < n /\ ends m x y rx ry /\ aux m rx = Some t
    | RS ry f => lock_mode /\ ry < n /\ (fok m x f /\ same (pa m) ry y \/ fok m y f /\ same (pa m) ry x)
    | Q0 _ _ | Q1 _ _ _ | Q2 _ _ | Q3 _ _ _ | Q4 _ _ _ | Q5 _ _ _ | QS _ _ => False
    | X1 f => same (pa m) x y /\ fok m x f
    | X2 f => same (pa m) x y /\ fok m y f
    | K0 => cas_mode
    | K1 p1 => cas_mode /\ p1 < n /\ same (pa m) p1 x
    | K2 h l | K3 h l | K4 h l => cas_mode /\ h < n /\ l < h /\ ends m x y h l
    | K5 h l t' => cas_mode /\ h < n /\ l < h /\ ends m x y h l /\ t' < n /\ same (pa m) t' h
    | K6 h l p1 => cas_mode /\ h < n /\ l < h /\ ends m x y h l /\ p1 < n /\ same (pa m) p1 h
    | Z0 => o = OCompress
    | Z1 a => o = OCompress /\ a <= x /\ same (pa m) x a /\ (pa m x = x -> a = x)
    | Z2 a t' => o = OCompress /\ a <= x /\ same (pa m) x a /\ t' <= x /\ same (pa m) x t' /\ (pa m x = x -> a = x /\ t' = x)
    | Z3 => o = OCompress /\ pa m x <> x
    | Z4 t' => o = OCompress /\ t' < x /\ same (pa m) x t'
    | Z5 w => o = OCompress /\ w < x /\ same (pa m) x w
    | Done => o = OCompress \/ same (pa m) x y
    | Fault => False
    end.

  Lemma tok_addr t x y m s : x < n -> y < n -> tok t (x, y) m s -> is_done s = false -> taddr x y s < n.
  Proof.
    intros Hx Hy. destruct s; simpl; intros H E; try discriminate; auto; try easy; try lia;
      try (apply Nat.max_lub_lt; tauto); try tauto;
      try (match goal with f : fstate |- _ => eapply fok_addr; intuition eauto end; fail).
    all: repeat match goal with X : _ /\ _ |- _ => destruct X end; match goal with X : _ \/ _ |- _ => destruct X as [[X _]|[X _]] end; eapply fok_addr; eauto.
  Qed.
  Lemma tok_rely t x y m m' s : rely t m m' -> x < n -> y < n -> tok t (x, y) m s -> tok t (x, y) m' s.
  Proof.
    intros R Hx Hy.
    assert (A : forall a b, a < n -> b < n -> same (pa m) a b -> same (pa m') a b) by (intros; now apply (r_same R)).
    assert (B : forall a, a < n -> W m a -> W m' a) by (intros; eapply rely_W; eauto).
    assert (E : forall a b, a < n -> b < n -> ends m x y a b -> ends m' x y a b) by (unfold ends; intros a b Ha Hb [[]|[]]; [left|right]; auto).
    assert (F : forall z f, z < n -> fok m z f -> fok m' z f) by (intros; eapply fok_rely; eauto).
    assert (N : forall a, a < n -> pa m a <> a -> pa m' a <> a) by (intros; now apply (r_non R)).
    assert (O1 : forall a, a < n -> aux m a = Some t -> aux m' a = Some t) by (intros; now apply (r_own R)).
    assert (O2 : forall a v, a < n -> aux m a = Some t -> ed m a = v -> ed m' a = v) by (intros a v Ha Ho <-; now apply (r_own R)).
    assert (O3 : forall a, a < n -> aux m a = Some t -> pa m a = a -> pa m' a = a) by (intros; now apply (r_own R)).
    assert (N' : pa m' x = x -> pa m x = x) by (intros Er; destruct (Nat.eq_dec (pa m x) x) as [|Hne]; auto; exfalso; exact (N x Hx Hne Er)).
    assert (FF : forall v f, v < n -> fok m x f /\ same (pa m) v y \/ fok m y f /\ same (pa m) v x ->
      fok m' x f /\ same (pa m') v y \/ fok m' y f /\ same (pa m') v x).
    { intros v f Hv [[]|[]]; [left|right]; auto. }
    destruct s; simpl; auto; intros H;
      repeat match goal with X : _ /\ _ |- _ => destruct X end; repeat (split; auto); eauto;
      try (apply E; auto; lia); try (apply A; auto; lia); try (destruct H; auto; fail); try (intros Er; apply N' in Er; firstorder lia).
  Qed.

  (* the entry of Edges that the call is about to write, or to make true *)
  Definition pendst (s : tstate) : option nat :=
    match s with WE a => Some a | D6 u _ => Some u | R9 rx _ _ => Some rx | _ => None end.
  Definition is_we (s : tstate) : bool := match s with WE _ => true | _ => false end.
  (* what a step does to the trees and to Edges *)
  Inductive eff (e : nat * nat) (m m' : mem) (st st' : tstate) : Prop :=
  | eff_keep : kept m m' -> ed m' = ed m -> pendst st = None -> pendst st' = None -> eff e m m' st st'
  | eff_write a : a < n -> m' = set_ed m a e ->
      st = WE a /\ pendst st' = None \/ pendst st = None /\ pendst st' = Some a /\ is_we st' = false /\ pa m a = a -> eff e m m' st st'
  | eff_link a b : m' = set_pa m a b -> pa m a = a -> b < a -> a < n -> ends m (fst e) (snd e) a b ->
      st' = WE a /\ pendst st = None \/ pendst st = Some a /\ is_we st = false /\ ed m a = Some e /\ pendst st' = None ->
      eff e m m' st st'.
  Definition ok (t : nat) (e : nat * nat) (m : mem) (st : tstate) (m' : mem) (st' : tstate) : Prop :=
    good m' /\ (cas_mode -> aux m' = aux m) /\ tok t e m' st' /\ (forall t', t' <> t -> rely t' m m') /\ eff e m m' st st'.

  Lemma ok_kept t e m m' st st' : good m' -> kept m m' -> ed m' = ed m -> aux m' = aux m -> tok t e m' st' ->
    pendst st = None -> pendst st' = None -> ok t e m st m' st'.
  Proof. intros G K E1 E2 T P1 P2. split; auto. split; auto. split; auto. split; [intros; now apply kept_rely|now apply eff_keep]. Qed.
  Lemma ok_id t e m st st' : good m -> tok t e m st' -> pendst st = None -> pendst st' = None -> ok t e m st m st'.
  Proof. intros. apply ok_kept; auto. apply kept_refl. Qed.

  Lemma nd_owned : nd = true -> owned = true.
  Proof. unfold nd, owned. destruct o; auto. Qed.

  (* linking a root *)
  Lemma link_ok m a b : good m -> a < n -> b < a -> pa m a = a ->
    good (set_pa m a b) /\ same (pa (set_pa m a b)) a b /\
    (forall x y, x < n -> y < n -> same (pa m) x y -> same (pa (set_pa m a b)) x y).
  Proof.
    intros G Ha Hb Er. assert (Hbn : b < n) by lia. destruct (rooted_ex (good_tree G) Hbn) as (s & Hs & Rs).
    assert (G' : good (set_pa m a b)).
    { intros x Hx. simpl. destruct (Nat.eq_dec x a) as [->|Hxa]; [rewrite fset_same; lia|rewrite fset_other; auto]. }
    assert (R : forall x, x < n -> forall r, rooted (pa m) x r -> rooted (fset (pa m) a b) x (if r =? a then s else r)).
    { apply (@link_rooted n key (pa m) _ a b s (good_tree G)); auto; [now apply kl_lt|now rewrite fset_same|intros; now rewrite fset_other]. }
    split; auto. split.
    - pose proof (same_up (good_tree G') Ha) as S. simpl in S. rewrite fset_same in S. exact S.
    - intros x y Hx Hy (r & A & B). exists (if r =? a then s else r). split; now apply R.
  Qed.
  Lemma ok_link t x y m a b st st' : good m -> a < n -> b < a -> pa m a = a -> ends m x y a b ->
    (cas_mode /\ (forall a, a < n -> aux m a = None) \/ aux m a = Some t) ->
    tok t (x, y) (set_pa m a b) st' ->
    (st' = WE a /\ pendst st = None \/ pendst st = Some a /\ is_we st = false /\ ed m a = Some (x, y) /\ pendst st' = None) ->
    ok t (x, y) m st (set_pa m a b) st'.
  Proof.
    intros G Ha Hb Er He Hm T Hst. destruct (link_ok G Ha Hb Er) as (G' & S & M). split; auto. split; auto. split; auto. split.
    - intros t' Ht'. split; auto; simpl.
      + intros z Hz Hn. destruct (Nat.eq_dec z a) as [->|Hza]; [rewrite fset_same; lia|now rewrite fset_other].
      + intros z Hz Ho. repeat split; auto. intros Ez. rewrite fset_other; auto. intros ->.
        destruct Hm as [[_ Hm]|Hm]; [specialize (Hm _ Hz)|]; congruence.
      + intros Hn z Hz Ez. destruct (Nat.eq_dec z a) as [->|Hza]; [|left; now rewrite fset_other].
        destruct Hm as [[Hm _]|Hm]; [|right; congruence]. exfalso. apply nd_owned in Hn. unfold cas_mode in Hm. congruence.
    - eapply eff_link; eauto.
  Qed.
  Lemma link_joined m x y a b : good m -> a < n -> b < a -> pa m a = a -> x < n -> y < n -> ends m x y a b ->
    same (pa (set_pa m a b)) x y.
  Proof.
    intros G Ha Hb Er Hx Hy He. destruct (link_ok G Ha Hb Er) as (G' & S & M). eapply (@ends_joined (set_pa m a b)); eauto.
    destruct He as [[A B]|[A B]]; [left|right]; split; apply M; auto; lia.
  Qed.

  Lemma early_ok t x y m u v : good m -> cas_mode -> u < n -> v < n -> ends m x y u v ->
    tok t (x, y) m (early u v) /\ pendst (early u v) = None.
  Proof.
    intros G C Hu Hv He. unfold early. destruct (Nat.eqb_spec u v) as [->|Hd].
    - split; auto. right. eapply ends_joined; eauto. eapply same_refl; eauto using good_tree.
    - destruct (Nat.ltb_spec u v); simpl; split; auto.
      + repeat (split; auto). now apply ends_sym.
      + repeat (split; auto). lia.
  Qed.
  Lemma klink_ok t x y m u v : good m -> cas_mode -> u < n -> v < n -> ends m x y u v ->
    tok t (x, y) m (klink u v) /\ pendst (klink u v) = None.
  Proof.
    intros G C Hu Hv He. unfold klink. destruct (Nat.eqb_spec u v) as [->|Hd].
    - split; auto. right. eapply ends_joined; eauto. eapply same_refl; eauto using good_tree.
    - simpl. split; auto. split; auto. split; [apply Nat.max_lub_lt; auto|]. split; [lia|].
      destruct (Nat.max_spec u v) as [[A ->]|[A ->]]; destruct (Nat.min_spec u v) as [[B ->]|[B ->]]; auto; try lia.
      now apply ends_sym.
  Qed.
  Lemma start_ok t x y m : good m -> x < n -> y < n -> (match o with ORemCAS _ _ => False | _ => True end) ->
    tok t (x, y) m (start o x y) /\ pendst (start o x y) = None.
  Proof.
    intros G Hx Hy Ho. pose proof (same_refl (good_tree G) Hx) as Sx. pose proof (same_refl (good_tree G) Hy) as Sy.
    assert (He : ends m x y x y) by (left; auto).
    unfold start. destruct o as [f| |f|f s|f s| |] eqn:Eo; try easy; simpl.
    - split; auto. split; [unfold cas_mode, owned; now rewrite Eo|]. repeat (split; auto). now apply find_ok.
    - apply early_ok; auto. unfold cas_mode, owned. now rewrite Eo.
    - split; auto. unfold nd. rewrite Eo. repeat (split; auto); [left; split; auto|]; now apply (@find_ok m x).
    - split; auto. unfold lock_mode, owned, nd. rewrite Eo. repeat (split; auto).
    - split; auto. unfold cas_mode, owned. now rewrite Eo.
  Qed.

  Lemma up_le m a : good m -> a < n -> pa m a < n.
  Proof. intros G Ha. specialize (G a Ha). lia. Qed.
  Lemma ends_mono m m' x y a b : (forall x y, x < n -> y < n -> same (pa m) x y -> same (pa m') x y) ->
    x < n -> y < n -> a < n -> b < n -> ends m x y a b -> ends m' x y a b.
  Proof. intros M Hx Hy Ha Hb [[]|[]]; [left|right]; auto. Qed.

  Lemma tstep_ok t x y m st m' st' : good m -> (cas_mode -> forall a, a < n -> aux m a = None) -> x < n -> y < n ->
    (match o with ORemCAS _ _ => False | _ => True end) ->
    tok t (x, y) m st -> tstep n o t (x, y) m st = (m', st') -> ok t (x, y) m st m' st'.
  Proof.
    intros G Hcm Hx Hy Ho T Ht. unfold tstep in Ht.
    assert (Hb : negb (is_done st) && (n <=? taddr x y st) = false).
    { destruct (is_done st) eqn:Ed; auto. simpl. apply Nat.leb_gt. eapply tok_addr; eauto. }
    rewrite Hb in Ht. clear Hb. cbv zeta in Ht. set (f0 := find (find_of o)) in *. set (sp := splice (splice_of o)) in *.
    pose proof (good_tree G) as GT.
    assert (FS : forall z f m1 r1, z < n -> fok m z f -> fstep m f = (m1, r1) -> good m1 /\ kept m m1 /\ ed m1 = ed m /\ aux m1 = aux m /\
      rely t m m1 /\
      match r1 with
      | inl f' => fok m1 z f' /\ (fopt f -> fopt f')
      | inr r => r < n /\ same (pa m1) r z /\ (fopt f -> W m1 r)
      end).
    { intros z f m1 r1 Hz Hf Hs. destruct (fstep_ok G Hz Hf Hs) as (A & B & C & D & E). do 4 (split; auto). split; auto. now apply kept_rely. }
    destruct st; cbn [tok] in T; try (exfalso; exact T).
    - (* U1 *) destruct (fstep m f) as [m1 z] eqn:Ef. injection Ht as <- <-. destruct T as (C & Hv & Sv & F).
      destruct (FS _ _ _ _ Hx F Ef) as (G1 & K & E1 & E2 & R & Z). pose proof (r_same R Hv Hy Sv) as Sv'.
      destruct z as [f'|u]; apply ok_kept; auto; simpl.
      + repeat (split; auto). apply Z.
      + destruct Z as (Hu & Su & _). repeat (split; auto). now apply find_ok.
    - (* U2 *) destruct (fstep m f) as [m1 z] eqn:Ef. injection Ht as <- <-. destruct T as (C & Hu & Su & F).
      destruct (FS _ _ _ _ Hy F Ef) as (G1 & K & E1 & E2 & R & Z). pose proof (r_same R Hu Hx Su) as Su'.
      destruct z as [f'|v]; [|destruct (Nat.eqb_spec u v) as [->|Hd]]; apply ok_kept; auto; simpl.
      + repeat (split; auto). apply Z.
      + right. eapply same_trans; [apply same_sym; exact Su'|]. apply Z.
      + destruct Z as (Hv & Sv & _). repeat (split; auto).
    - (* U3 *) injection Ht as <- <-. destruct T as (C & Hu & Hv & Hd & Su & Sv). 
      destruct (pa m (Nat.max u v) =? Nat.max u v); apply ok_id; auto; simpl; repeat (split; auto). now apply find_ok.
    - (* U4 *) destruct T as (C & Hu & Hv & Hd & Su & Sv). unfold cas in Ht.
      destruct (Nat.eqb_spec (pa m (Nat.max u v)) (Nat.max u v)) as [Er|Er].
      + injection Ht as <- <-. assert (Ha : Nat.max u v < n) by (apply Nat.max_lub_lt; auto).
        assert (Hl : Nat.min u v < Nat.max u v) by lia.
        assert (He : ends m x y (Nat.max u v) (Nat.min u v)).
        { destruct (Nat.max_spec u v) as [[A ->]|[A ->]]; destruct (Nat.min_spec u v) as [[B ->]|[B ->]]; auto; try lia; [right|left]; auto. }
        apply ok_link; auto. simpl. repeat (split; auto). now apply (@link_joined m).
      + injection Ht as <- <-. apply ok_id; auto. simpl. repeat (split; auto). now apply find_ok.
    - (* WE *) injection Ht as <- <-. destruct T as (C & Ha & S).
      assert (Hal : after_link o x = Done) by (destruct o; auto; easy). rewrite Hal.
      split; auto. split; auto. split; [right; auto|]. split.
      + intros t' Ht'. split; auto.
        * intros b Hb Hob. rewrite (Hcm C b Hb) in Hob. discriminate.
      + eapply eff_write; eauto.
    - (* E0 *) injection Ht as <- <-. destruct T as (C & Hu & Hv & He).
      destruct (Nat.eqb_spec (pa m u) u); apply ok_id; auto; simpl; repeat (split; auto).
    - (* E1 *) destruct T as (C & Hu & Hv & He). unfold cas in Ht. destruct (Nat.eqb_spec (pa m u) u) as [Er|Er]; injection Ht as <- <-.
      + apply ok_link; auto. simpl. repeat (split; auto). now apply (@link_joined m).
      + apply ok_id; auto; simpl; repeat (split; auto).
    - (* E2 *) injection Ht as <- <-. destruct T as (C & Hu & Hv & He & Hn). apply ok_id; auto. simpl.
      pose proof (G u Hu). repeat (split; auto); [lia|]. eapply same_up; eauto.
    - (* E3 *) injection Ht as <- <-. destruct T as (C & Hu & Hv & He & Hz & Sz). apply ok_id; auto. simpl.
      assert (Hzn : z < n) by lia. pose proof (G z Hzn). repeat (split; auto); [lia|]. eapply same_trans; eauto. eapply same_up; eauto.
    - (* E4 *) injection Ht as <- <-. destruct T as (C & Hu & Hv & He & Hw & Sw).
      destruct (@cas_kept m u z w) as (K & G1 & E1 & E2); auto.
      assert (M : forall x y, x < n -> y < n -> same (pa m) x y -> same (pa (cas m u z w)) x y) by (intros; eapply kept_same; eauto).
      assert (He' : ends (cas m u z w) x y w v).
      { apply (ends_mono M); auto; try lia. eapply ends_move; eauto; [now apply same_sym|]. eapply same_refl; eauto. lia. }
      destruct (@early_ok t x y (cas m u z w) w v) as [A B]; auto; try lia. apply ok_kept; auto.
    - (* D1 *) destruct (fstep m f) as [m1 z] eqn:Ef. injection Ht as <- <-. destruct T as (Hn & Hv & F & Fo).
      destruct F as [[F Sv]|[F Sv]].
      + destruct (FS _ _ _ _ Hx F Ef) as (G1 & K & E1 & E2 & R & Z). pose proof (r_same R Hv Hy Sv) as Sv'.
        destruct z as [f'|u]; apply ok_kept; auto; simpl.
        * destruct Z as [Z1 Z2]. repeat (split; auto).
        * destruct Z as (Hu & Su & Z). split; auto. split; auto. split; [right; split; auto; now apply find_ok|]. split; [now apply Z|]. now apply (@find_ok m1 y).
      + destruct (FS _ _ _ _ Hy F Ef) as (G1 & K & E1 & E2 & R & Z). pose proof (r_same R Hv Hx Sv) as Sv'.
        destruct z as [f'|u]; apply ok_kept; auto; simpl.
        * destruct Z as [Z1 Z2]. repeat (split; auto).
        * destruct Z as (Hu & Su & Z). split; auto. split; auto. split; [left; split; auto; now apply find_ok|]. split; [now apply Z|]. now apply (@find_ok m1 x).
    - (* D2 *) destruct (fstep m f) as [m1 z] eqn:Ef. injection Ht as <- <-. destruct T as (Hn & Hu & F & Wu & Fo).
      assert (X : good m1 /\ kept m m1 /\ ed m1 = ed m /\ aux m1 = aux m /\ W m1 u /\
        match z with
        | inl f' => (fok m1 x f' /\ same (pa m1) u y \/ fok m1 y f' /\ same (pa m1) u x) /\ fopt f'
        | inr v => v < n /\ W m1 v /\ ends m1 x y u v
        end).
      { destruct F as [[F Su]|[F Su]].
        - destruct (FS _ _ _ _ Hx F Ef) as (G1 & K & E1 & E2 & R & Z). pose proof (r_same R Hu Hy Su) as Su'.
          do 4 (split; auto). split; [eapply rely_W; eauto|]. destruct z as [f'|v]; [split; [left; split; auto|]; now apply Z|].
          destruct Z as (Hv & Sv & Z). split; auto. split; auto. right; auto.
        - destruct (FS _ _ _ _ Hy F Ef) as (G1 & K & E1 & E2 & R & Z). pose proof (r_same R Hu Hx Su) as Su'.
          do 4 (split; auto). split; [eapply rely_W; eauto|]. destruct z as [f'|v]; [split; [right; split; auto|]; now apply Z|].
          destruct Z as (Hv & Sv & Z). split; auto. split; auto. left; auto. }
      destruct X as (G1 & K & E1 & E2 & Wu' & Z). destruct z as [f'|v]; [|destruct Z as (Hv & Wv & He); destruct (Nat.eqb_spec u v) as [->|Hd]]; apply ok_kept; auto; simpl.
      + destruct Z. repeat (split; auto).
      + right. eapply ends_joined; eauto. eapply same_refl; eauto using good_tree.
      + split; auto. split; [apply Nat.max_lub_lt; auto|]. split; [lia|].
        destruct (Nat.max_spec u v) as [[A ->]|[A ->]]; destruct (Nat.min_spec u v) as [[B ->]|[B ->]]; auto; try lia.
        split; auto. now apply ends_sym.
    - (* D3 *) injection Ht as <- <-. destruct T as (Hn & Hu & Hv & He & Wu).
      destruct (aux m u); apply ok_id; auto; simpl; repeat (split; auto).
      + lia.
      + destruct He as [[A B]|[A B]]; [left|right]; split; auto; now apply find_ok.
      + subst f0. now apply (@find_ok m u (find_of o) u Hu (same_refl GT Hu)).
    - (* D4 *) destruct T as (Hn & Hu & Hv & He & Wu). destruct (aux m u) eqn:Ea; injection Ht as <- <-.
      + apply ok_id; auto; simpl; repeat (split; auto).
        * lia.
        * destruct He as [[A B]|[A B]]; [left|right]; split; auto; now apply find_ok.
        * now apply (@find_ok m u (find_of o) u Hu (same_refl GT Hu)).
      + split; auto. split; [intros C; apply nd_owned in Hn; unfold cas_mode in C; congruence|]. split.
        { simpl. rewrite fset_same. repeat (split; auto). destruct (Wu Hn); [auto|congruence]. }
        split; [|apply eff_keep; auto; split; simpl; auto; tauto].
        intros t' Ht'. split; simpl; auto.
        * intros a Ha Hoa. rewrite fset_other; auto. intros ->. congruence.
        * intros _ a Ha Hna. destruct (Nat.eq_dec a u) as [->|Hau]; [now rewrite fset_same|now rewrite fset_other].
    - (* D5 *) injection Ht as <- <-. destruct T as (Hn & Hu & Hv & He & Ow & Er). split; auto. split; auto. split.
      { simpl. rewrite fset_same. repeat (split; auto). }
      split; [|eapply eff_write; eauto; right; auto]. intros t' Ht'. split; simpl; auto.
      intros a Ha Hoa. rewrite fset_other; auto. intros ->. congruence.
    - (* D6 *) injection Ht as <- <-. destruct T as (Hn & Hu & Hv & He & Ow & Er & Ee). apply ok_link; auto.
      right. now apply (@link_joined m).
    - (* R0 *) injection Ht as <- <-. destruct T as (C & Hrx & Hry & He). apply ok_id; auto. simpl. repeat (split; auto); try apply C; [now apply up_le|].
      apply same_sym. eapply same_up; eauto.
    - (* R1 *) injection Ht as <- <-. destruct T as (C & Hrx & Hry & He & Ha & Sa). destruct (Nat.eqb_spec a (pa m ry)) as [E|E]; apply ok_id; auto; simpl.
      + split; [|now apply find_ok; [|eapply same_refl; eauto]]. eapply ends_joined; eauto.
        eapply same_trans; [apply same_sym; exact Sa|]. rewrite E. apply same_sym. eapply same_up; eauto.
      + unfold compress. destruct (find_of o); auto.
    - (* R2 *) injection Ht as <- <-. apply ok_id; auto.
    - (* R3 *) injection Ht as <- <-. destruct T as (C & Hrx & Hry & He). destruct (c <? pa m ry); apply ok_id; auto; simpl; repeat (split; auto); try apply C.
      now apply ends_sym.
    - (* R4 *) injection Ht as <- <-. destruct T as (C & Hrx & Hry & He). destruct (rx =? pa m rx); apply ok_id; auto; simpl; split; auto. split; auto.
      destruct He as [[A B]|[A B]]; [left|right]; split; auto; now apply splice_ok.
    - (* R5 *) destruct T as (C & Hrx & Hry & He). destruct (aux m rx) eqn:Ea; injection Ht as <- <-.
      + apply ok_id; auto. simpl. auto.
      + split; auto. split; [intros C'; destruct C as [C _]; unfold cas_mode in C'; congruence|]. split.
        { simpl. rewrite fset_same. auto. }
        split; [|apply eff_keep; auto; split; simpl; auto; tauto].
        intros t' Ht'. split; simpl; auto.
        * intros a Ha Hoa. rewrite fset_other; auto. intros ->. congruence.
        * intros Hn. destruct C as [_ C]. congruence.
    - (* R6 *) injection Ht as <- <-. destruct T as (C & Hrx & Hry & He & Ow). apply ok_id; auto. simpl. repeat (split; auto); try apply C; [now apply up_le|].
      apply same_sym. eapply same_up; eauto.
    - (* R7 *) injection Ht as <- <-. destruct T as (C & Hrx & Hry & He & Ow & Hp & Sp). destruct (Nat.eqb_spec rx (pa m rx)) as [E|E]; simpl.
      + destruct (Nat.ltb_spec py rx); apply ok_id; auto; simpl; repeat (split; auto); apply C.
      + apply ok_id; auto; simpl; repeat (split; auto); apply C.
    - (* R8 *) injection Ht as <- <-. destruct T as (C & Hrx & Hry & He & Ow & Hp & Sp & Er). split; auto. split; auto. split.
      { simpl. rewrite fset_same. repeat (split; auto); apply C. }
      split; [|apply (@eff_write (x, y) m _ (R8 rx ry py) (R9 rx ry py) rx); auto; right; auto]. intros t' Ht'. split; simpl; auto.
      intros a Ha Hoa. rewrite fset_other; auto. intros ->. congruence.
    - (* R9 *) injection Ht as <- <-. destruct T as (C & Hrx & Hry & He & Ow & Hp & Sp & Er & Ee).
      assert (He' : ends m x y rx py) by (eapply ends_move; eauto; eapply same_refl; eauto).
      destruct (link_ok G Hrx Hp Er) as (G' & S & M). apply ok_link; auto.
      simpl. split; auto. split; auto. split; auto. split; auto. now apply (ends_mono M).
    - (* R10 *) injection Ht as <- <-. destruct T as (C & Hrx & Hry & He & Ow). split; auto.
      split; [intros C'; destruct C as [C _]; unfold cas_mode in C'; congruence|]. split; [simpl; auto|].
      split; [|apply eff_keep; auto; split; simpl; auto; tauto].
      intros t' Ht'. split; simpl; auto.
      + intros a Ha Hoa. rewrite fset_other; auto. intros ->. congruence.
      + intros Hn. destruct C as [_ C]. congruence.
    - (* RS *) destruct (fstep m f) as [m1 z] eqn:Ef. injection Ht as <- <-. destruct T as (C & Hry & F).
      destruct F as [[F Sv]|[F Sv]].
      + destruct (FS _ _ _ _ Hx F Ef) as (G1 & K & E1 & E2 & R & Z). pose proof (r_same R Hry Hy Sv) as Sv'.
        destruct z as [f'|u]; apply ok_kept; auto; simpl; split; auto; split; auto.
        * left. split; auto. apply Z.
        * apply Z.
        * split; auto. left. split; auto. apply Z.
      + destruct (FS _ _ _ _ Hy F Ef) as (G1 & K & E1 & E2 & R & Z). pose proof (r_same R Hry Hx Sv) as Sv'.
        destruct z as [f'|u]; apply ok_kept; auto; simpl; split; auto; split; auto.
        * right. split; auto. apply Z.
        * apply Z.
        * split; auto. right. split; auto. apply Z.
    - (* X1 *) destruct (fstep m f) as [m1 z] eqn:Ef. injection Ht as <- <-. destruct T as [S F].
      destruct (FS _ _ _ _ Hx F Ef) as (G1 & K & E1 & E2 & R & Z). pose proof (r_same R Hx Hy S) as S'.
      destruct z as [f'|u]; apply ok_kept; auto; simpl; split; auto; [apply Z|]. apply find_ok; auto. eapply same_refl; eauto using good_tree.
    - (* X2 *) destruct (fstep m f) as [m1 z] eqn:Ef. injection Ht as <- <-. destruct T as [S F].
      destruct (FS _ _ _ _ Hy F Ef) as (G1 & K & E1 & E2 & R & Z). pose proof (r_same R Hx Hy S) as S'.
      destruct z as [f'|u]; apply ok_kept; auto; simpl; auto. split; auto. apply Z.
    - (* K0 *) injection Ht as <- <-. apply ok_id; auto. simpl. split; auto. split; [now apply up_le|]. apply same_sym. eapply same_up; eauto.
    - (* K1 *) injection Ht as <- <-. destruct T as (C & Hp & Sp). destruct (@klink_ok t x y m p1 (pa m y)) as [A B]; auto; [now apply up_le| |apply ok_id; auto].
      left. split; auto. apply same_sym. eapply same_up; eauto.
    - (* K2 *) injection Ht as <- <-. destruct T as (C & Hh & Hl & He). destruct (Nat.eqb_spec (pa m h) l) as [E|E].
      + apply ok_id; auto. right. eapply ends_joined; eauto. rewrite <- E. eapply same_up; eauto.
      + destruct (pa m h =? h); apply ok_id; auto; simpl; auto.
    - (* K3 *) destruct T as (C & Hh & Hl & He). unfold cas in Ht. destruct (Nat.eqb_spec (pa m h) h) as [Er|Er]; injection Ht as <- <-.
      + apply ok_link; auto. simpl. repeat (split; auto). now apply (@link_joined m).
      + apply ok_id; auto; simpl; auto.
    - (* K4 *) injection Ht as <- <-. destruct T as (C & Hh & Hl & He). apply ok_id; auto. simpl. repeat (split; auto); [now apply up_le|].
      apply same_sym. eapply same_up; eauto.
    - (* K5 *) injection Ht as <- <-. destruct T as (C & Hh & Hl & He & Ht' & St'). apply ok_id; auto. simpl. repeat (split; auto); [now apply up_le|].
      eapply same_trans; [|exact St']. apply same_sym. eapply same_up; eauto.
    - (* K6 *) injection Ht as <- <-. destruct T as (C & Hh & Hl & He & Hp & Sp). assert (Hln : l < n) by lia.
      destruct (@klink_ok t x y m p1 (pa m l)) as [A B]; auto; [now apply up_le| |apply ok_id; auto].
      eapply ends_move; eauto. apply same_sym. eapply same_up; eauto.
    - (* Z0 *) injection Ht as <- <-. apply ok_id; auto. simpl. repeat (split; auto). eapply same_up; eauto.
    - (* Z1 *) injection Ht as <- <-. destruct T as (C & Ha & Sa & Er). apply ok_id; auto. simpl. repeat (split; auto). eapply same_up; eauto.
    - (* Z2 *) injection Ht as <- <-. destruct T as (C & Ha & Sa & Ht' & St' & Er). destruct (Nat.eqb_spec a (pa m t0)) as [E|E]; apply ok_id; auto; simpl; auto.
      split; auto. intros Hr. destruct (Er Hr) as [-> ->]. congruence.
    - (* Z3 *) injection Ht as <- <-. destruct T as (C & Hn). apply ok_id; auto. simpl. pose proof (G x Hx). repeat (split; auto); [lia|]. eapply same_up; eauto.
    - (* Z4 *) injection Ht as <- <-. destruct T as (C & Ht' & St'). apply ok_id; auto. simpl.
      assert (Htn : t0 < n) by lia. pose proof (G t0 Htn). repeat (split; auto); [lia|]. eapply same_trans; eauto. eapply same_up; eauto.
    - (* Z5 *) injection Ht as <- <-. destruct T as (C & Hw & Sw). destruct (write_kept G Hx Hw Sw) as [K G1]. apply ok_kept; auto.
    - (* Done *) injection Ht as <- <-. apply ok_id; auto.
  Qed.
End SU.
