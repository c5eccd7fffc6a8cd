(* Counting the five-cycles of a graph: every way to choose one of the ten listings of each cycle gives
   the same number. *)
From Coq Require Import Permutation.
From Verif Require Import Base ListUtil.
Unset Strict Implicit.

Definition tup : Type := (nat * nat * nat * nat * nat)%type.
Definition rot (t : tup) : tup := let '(a, b, c, d, e) := t in (b, c, d, e, a).
Definition back (t : tup) : tup := let '(a, b, c, d, e) := t in (a, e, d, c, b).
Definition ten (t : tup) : list tup :=
  let r1 := rot t in let r2 := rot r1 in let r3 := rot r2 in let r4 := rot r3 in
  [t; r1; r2; r3; r4; back t; back r1; back r2; back r3; back r4].
Definition b2n (b : bool) : nat := if b then 1 else 0.
Definition hits (P : tup -> bool) (t : tup) : nat := list_sum (map (fun x => b2n (P x)) (ten t)).

Lemma filter_map_len {A B} (f : A -> B) (P : B -> bool) l : length (filter P (map f l)) = length (filter (fun x => P (f x)) l).
Proof. induction l as [|x l IH]; simpl; auto. destruct (P (f x)); simpl; now rewrite IH. Qed.
Lemma inj_NoDup {A B} (f : A -> B) l : (forall x y, f x = f y -> x = y) -> NoDup l -> NoDup (map f l).
Proof.
  intros Hf. induction 1 as [|x l Hx Hn IH]; simpl; constructor; auto. intros H. apply in_map_iff in H as (y & E & Hy). apply Hf in E. now subst.
Qed.
Lemma onto_perm (f : tup -> tup) T : (forall x y, f x = f y -> x = y) -> NoDup T -> (forall t, In t T -> In (f t) T) -> Permutation (map f T) T.
Proof.
  intros Hf Hn Hc. apply NoDup_Permutation_bis.
  - now apply inj_NoDup.
  - now rewrite map_length.
  - intros x Hx. apply in_map_iff in Hx as (y & <- & Hy). auto.
Qed.
Lemma onto_count (f : tup -> tup) (P : tup -> bool) T : (forall x y, f x = f y -> x = y) -> NoDup T -> (forall t, In t T -> In (f t) T) ->
  length (filter (fun x => P (f x)) T) = length (filter P T).
Proof. intros Hf Hn Hc. rewrite <- filter_map_len. apply Permutation_length, perm_filter. now apply onto_perm. Qed.

Lemma rot_inj x y : rot x = rot y -> x = y.
Proof. destruct x as [[[[? ?] ?] ?] ?], y as [[[[? ?] ?] ?] ?]. cbn. intros E. injection E. intros. now subst. Qed.
Lemma back_inj x y : back x = back y -> x = y.
Proof. destruct x as [[[[? ?] ?] ?] ?], y as [[[[? ?] ?] ?] ?]. cbn. intros E. injection E. intros. now subst. Qed.

Lemma filter_one {A} (P : A -> bool) x l : length (filter P (x :: l)) = b2n (P x) + length (filter P l).
Proof. simpl. destruct (P x); reflexivity. Qed.
Theorem ten_count (P : tup -> bool) T : NoDup T -> (forall t, In t T -> In (rot t) T /\ In (back t) T) ->
  (forall t, In t T -> hits P t = 1) -> 10 * length (filter P T) = length T.
Proof.
  intros Hn Hc H1.
  assert (Hr : forall t, In t T -> In (rot t) T) by (intros; now apply Hc).
  assert (Hb : forall t, In t T -> In (back t) T) by (intros; now apply Hc).
  set (f1 := rot). set (f2 := fun t => rot (f1 t)). set (f3 := fun t => rot (f2 t)). set (f4 := fun t => rot (f3 t)).
  assert (S : length (filter P T) + (length (filter (fun t => P (f1 t)) T) + (length (filter (fun t => P (f2 t)) T) + (length (filter (fun t => P (f3 t)) T) + (length (filter (fun t => P (f4 t)) T) +
    (length (filter (fun t => P (back t)) T) + (length (filter (fun t => P (back (f1 t))) T) + (length (filter (fun t => P (back (f2 t))) T) + (length (filter (fun t => P (back (f3 t))) T) +
     length (filter (fun t => P (back (f4 t))) T))))))))) = length T).
  { clear Hn Hc Hr Hb. induction T as [|t T IH]; [reflexivity|]. specialize (IH (fun x Hx => H1 x (or_intror Hx))). pose proof (H1 t (or_introl eq_refl)) as E.
    rewrite !filter_one. cbn [length]. rewrite <- IH. unfold hits, ten in E. cbn [map list_sum fold_right] in E. unfold f4, f3, f2, f1 in *. cbn zeta in E. lia. }
  assert (I : forall f, (forall x y, f x = f y -> x = y) -> (forall t, In t T -> In (f t) T) -> length (filter (fun x => P (f x)) T) = length (filter P T)) by (intros; now apply onto_count).
  pose proof (I f1) as I1. pose proof (I f2) as I2. pose proof (I f3) as I3. pose proof (I f4) as I4. pose proof (I back) as J0.
  pose proof (I (fun t => back (f1 t))) as J1. pose proof (I (fun t => back (f2 t))) as J2. pose proof (I (fun t => back (f3 t))) as J3. pose proof (I (fun t => back (f4 t))) as J4.
  rewrite I1, I2, I3, I4, J0, J1, J2, J3, J4 in S by (unfold f4, f3, f2, f1; auto 10 using rot_inj, back_inj). lia.
Qed.

(* a five-cycle from any of its vertices in any direction *)
Section Cycles.
  Variable n : nat.
  Variable E : nat -> nat -> Prop.
  Hypothesis Esym : forall u v, u < n -> E u v -> v < n /\ E v u.
  Definition closed_walk (t : tup) : Prop :=
    let '(a, b, c, d, e) := t in
    (a < n /\ b < n /\ c < n /\ d < n /\ e < n) /\ NoDup [a; b; c; d; e] /\ E a b /\ E b c /\ E c d /\ E d e /\ E e a.
  Lemma nodup5 (a b c d e : nat) : NoDup [a; b; c; d; e] <->
    a <> b /\ a <> c /\ a <> d /\ a <> e /\ b <> c /\ b <> d /\ b <> e /\ c <> d /\ c <> e /\ d <> e.
  Proof.
    split.
    - intros H. inversion H; subst. inversion H3; subst. inversion H5; subst. inversion H7; subst. simpl in *. intuition congruence.
    - intros. repeat constructor; simpl; intuition congruence.
  Qed.
  Lemma rot_closed t : closed_walk t -> closed_walk (rot t).
  Proof. destruct t as [[[[a b] c] d] e]. cbn [rot closed_walk]. rewrite !nodup5. intuition congruence. Qed.
  Lemma back_closed t : closed_walk t -> closed_walk (back t).
  Proof.
    destruct t as [[[[a b] c] d] e]. cbn [back closed_walk]. rewrite !nodup5. intros (B & D & H1 & H2 & H3 & H4 & H5).
    apply Esym in H1; [|tauto]. apply Esym in H2; [|tauto]. apply Esym in H3; [|tauto]. apply Esym in H4; [|tauto]. apply Esym in H5; [|tauto]. intuition congruence.
  Qed.
  Variable T : list tup.
  Hypothesis HT : NoDup T.
  Hypothesis TIn : forall t, In t T <-> closed_walk t.
  Lemma chosen_count P : (forall t, closed_walk t -> hits P t = 1) -> 10 * length (filter P T) = length T.
  Proof. intros H. apply ten_count; auto; intros t Ht; rewrite ?TIn in *; auto. split; [apply rot_closed|apply back_closed]; auto. Qed.

  (* smallest vertex first, then the smaller of its neighbours *)
  Definition least (t : tup) : bool := let '(a, b, c, d, e) := t in (a <? b) && (a <? c) && (a <? d) && (a <? e).
  Definition canonical (t : tup) : bool := let '(a, b, c, d, e) := t in least t && (b <? e).
  Lemma five_least (a b c d e : nat) : NoDup [a; b; c; d; e] ->
    (a < b /\ a < c /\ a < d /\ a < e) \/ (b < a /\ b < c /\ b < d /\ b < e) \/ (c < a /\ c < b /\ c < d /\ c < e) \/ (d < a /\ d < b /\ d < c /\ d < e) \/ (e < a /\ e < b /\ e < c /\ e < d).
  Proof.
    rewrite nodup5. intros D.
    assert (X : exists m, (m = a \/ m = b \/ m = c \/ m = d \/ m = e) /\ m <= a /\ m <= b /\ m <= c /\ m <= d /\ m <= e).
    { exists (Nat.min a (Nat.min b (Nat.min c (Nat.min d e)))). clear. split; [|lia]. 
      destruct (Nat.min_dec a (Nat.min b (Nat.min c (Nat.min d e)))) as [->| ->]; auto. destruct (Nat.min_dec b (Nat.min c (Nat.min d e))) as [->| ->]; auto.
      destruct (Nat.min_dec c (Nat.min d e)) as [->| ->]; auto. destruct (Nat.min_dec d e) as [->| ->]; auto. }
    destruct X as (m & Hm & L1 & L2 & L3 & L4 & L5). destruct D as (D1 & D2 & D3 & D4 & D5 & D6 & D7 & D8 & D9 & D10).
    assert (Y : forall x y : nat, x <= y -> x <> y -> x < y) by (intros; lia).
    destruct Hm as [->|[->|[->|[->| ->]]]]; [left|right; left|right; right; left|right; right; right; left|right; right; right; right]; repeat split; apply Y; auto.
  Qed.
  (* a test of the smallest vertex and of an antisymmetric comparison of two others *)
  Section Least.
    Variable Q : tup -> bool.
    Hypothesis HQ : forall t, closed_walk t -> Q (back t) = negb (Q t).
    Lemma least_hits t : closed_walk t -> hits (fun t => least t && Q t) t = 1.
    Proof.
      intros Hw. pose proof (rot_closed Hw) as W1. pose proof (rot_closed W1) as W2. pose proof (rot_closed W2) as W3. pose proof (rot_closed W3) as W4.
      unfold hits, ten. cbn zeta. cbn [map]. rewrite (HQ Hw), (HQ W1), (HQ W2), (HQ W3), (HQ W4). clear W1 W2 W3 W4.
      destruct t as [[[[a b] c] d] e]. cbn [rot back least]. destruct Hw as (_ & Hn & _).
      destruct (five_least Hn) as [(L1 & L2 & L3 & L4)|[(L1 & L2 & L3 & L4)|[(L1 & L2 & L3 & L4)|[(L1 & L2 & L3 & L4)|(L1 & L2 & L3 & L4)]]]];
        repeat match goal with
        | H : ?x < ?y |- _ => rewrite ?(proj2 (Nat.ltb_lt x y) H), ?(proj2 (Nat.ltb_ge y x) (Nat.lt_le_incl _ _ H)); clear H
        end; cbn [andb]; rewrite ?andb_false_r; cbn [andb b2n];
        match goal with |- context [negb (Q ?x)] => idtac | _ => idtac end;
        repeat match goal with |- context [Q ?x] => let v := fresh in remember (Q x) as v; destruct v; cbn end; reflexivity.
    Qed.
  End Least.
  Lemma canonical_hits t : closed_walk t -> hits canonical t = 1.
  Proof.
    intros Hw. rewrite <- (@least_hits (fun t => let '(a, b, c, d, e) := t in b <? e)) with (t := t); auto.
    - unfold hits, ten, canonical. destruct t as [[[[a b] c] d] e]. reflexivity.
    - intros [[[[a b] c] d] e] (_ & Hn & _). cbn [back]. apply nodup5 in Hn. destruct (Nat.ltb_spec b e), (Nat.ltb_spec e b); try reflexivity; lia.
  Qed.
  (* the vertex opposite edge directed by rank *)
  Definition kowalik (rk : nat -> nat) (t : tup) : bool := let '(a, b, c, d, e) := t in least t && (rk c <? rk d).
  Lemma kowalik_hits rk t : (forall u v, u < n -> v < n -> rk u = rk v -> u = v) -> closed_walk t -> hits (kowalik rk) t = 1.
  Proof.
    intros Hr Hw. rewrite <- (@least_hits (fun t => let '(a, b, c, d, e) := t in rk c <? rk d)) with (t := t); auto.
    - unfold hits, ten, kowalik. destruct t as [[[[a b] c] d] e]. reflexivity.
    - intros [[[[a b] c] d] e] (B & Hn & _). cbn [back]. apply nodup5 in Hn. assert (rk c <> rk d) by (intros X; apply Hr in X; tauto).
      destruct (Nat.ltb_spec (rk c) (rk d)), (Nat.ltb_spec (rk d) (rk c)); try reflexivity; lia.
  Qed.
  (* an increasing path of two edges whose first vertex is smaller than its other neighbour, and the
     vertex opposite to the first edge is not greater than both its neighbours *)
  Definition escape (t : tup) : bool :=
    let '(k, j, i, m, l) := t in (k <? j) && (j <? i) && (k <? l) && negb ((i <? m) && (l <? m)).
  Lemma escape_hits t : closed_walk t -> hits escape t = 1.
  Proof.
    destruct t as [[[[a b] c] d] e]. intros (_ & Hn & _). apply nodup5 in Hn. unfold hits, ten. cbn zeta. cbn [rot back map escape].
    assert (S : forall x y, x <> y -> (y <? x) = negb (x <? y)) by (intros x y Hxy; destruct (Nat.ltb_spec x y), (Nat.ltb_spec y x); try reflexivity; lia).
    rewrite (S a b), (S b c), (S c d), (S d e), (S e a) by (try tauto; intuition congruence). clear S.
    destruct (Nat.ltb_spec a b), (Nat.ltb_spec b c), (Nat.ltb_spec c d), (Nat.ltb_spec d e), (Nat.ltb_spec e a); try reflexivity; lia.
  Qed.
End Cycles.

Lemma NoDup_prod {A B} (l : list A) (l' : list B) : NoDup l -> NoDup l' -> NoDup (list_prod l l').
Proof.
  induction 1 as [|x l Hx _ IH]; intros H'; simpl; [constructor|]. apply NoDup_app_iff. split; [|split; auto].
  - apply FinFun.Injective_map_NoDup; auto. intros a b E. congruence.
  - intros p Hp Hq. apply in_map_iff in Hp as (y & <- & _). apply in_prod_iff in Hq as [Hq _]. contradiction.
Qed.
(* all closed walks *)
Definition five_tuples (n : nat) : list tup :=
  let s := seq 0 n in list_prod (list_prod (list_prod (list_prod s s) s) s) s.
Lemma walks_exist n E : (forall u v, {E u v} + {~ E u v}) -> exists T, NoDup T /\ forall t, In t T <-> closed_walk n E t.
Proof.
  intros Hd. assert (D : forall t, {closed_walk n E t} + {~ closed_walk n E t}).
  { intros [[[[a b] c] d] e]. cbn. assert (Hn : {NoDup [a; b; c; d; e]} + {~ NoDup [a; b; c; d; e]}) by (apply ListDec.NoDup_dec, Nat.eq_dec).
    assert (L : forall x, {x < n} + {~ x < n}) by (intros x; apply lt_dec).
    assert (A2 : forall P Q : Prop, {P} + {~ P} -> {Q} + {~ Q} -> {P /\ Q} + {~ (P /\ Q)}) by (intros; tauto). repeat apply A2; auto. }
  exists (filter (fun t => if D t then true else false) (five_tuples n)). split.
  - apply NoDup_filter. unfold five_tuples. cbn zeta. repeat apply NoDup_prod; apply seq_NoDup.
  - intros t. rewrite filter_In. destruct (D t) as [H|H]; [|intuition congruence]. split; auto. intros _. split; auto.
    destruct t as [[[[a b] c] d] e]. destruct H as ((?&?&?&?&?) & _). unfold five_tuples. cbn zeta. repeat apply in_prod; apply in_seq; lia.
Qed.
