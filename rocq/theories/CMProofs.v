(* Proofs for C91. *)
From Coq Require Import ZArith Lia.
From Verif Require Import Base CMModel CMSpec.
Unset Strict Implicit.

Lemma word_eqb_spec a b : reflect (a = b) (word_eqb a b).
Proof. unfold word_eqb. destruct (list_eq_dec Nat.eq_dec a b); constructor; auto. Qed.

(* ---------- scanning ---------- *)
Lemma nth_lt {A} (l : list A) k x : nth_error l k = Some x -> k < length l.
Proof. intros H. apply nth_error_Some. rewrite H. discriminate. Qed.
Lemma scan_spec (argv : list word) (o : word) n : forall i, i + n <= length argv ->
  (exists j, scan argv o n i = Value (Some j) /\ i <= j < i + n /\ nth_error argv j = Some o /\ forall k, i <= k < j -> nth_error argv k <> Some o) \/
  (scan argv o n i = Value None /\ forall k, i <= k < i + n -> nth_error argv k <> Some o).
Proof.
  induction n as [|n IH]; intros i Hi; cbn [scan]; [right; split; auto; lia|]. unfold at_arg.
  destruct (nth_error argv i) as [a|] eqn:Ea; [|apply nth_error_None in Ea; lia]. cbn [obind]. destruct (word_eqb_spec a o) as [->|Hne].
  - left. exists i. repeat split; auto; lia.
  - destruct (IH (S i)) as [(j & E & Hj & Ho & Hf)|(E & Hf)]; [lia| |].
    + left. exists j. repeat split; auto; try lia. intros k Hk. destruct (Nat.eq_dec k i) as [->|]; [congruence|]. apply Hf. lia.
    + right. split; auto. intros k Hk. destruct (Nat.eq_dec k i) as [->|]; [congruence|]. apply Hf. lia.
Qed.
Lemma getOption_spec (argv : list word) (o : word) : getOption argv o = Value (if in_dec (list_eq_dec Nat.eq_dec) o (tl argv) then true else false).
Proof.
  unfold getOption, argc. destruct argv as [|p l]; [reflexivity|]. cbn [length tl]. rewrite Nat.sub_succ, Nat.sub_0_r.
  destruct (@scan_spec (p :: l) o (length l) 1) as [(j & -> & Hj & Ho & _)|(-> & Hf)]; [cbn; lia| |]; cbn [obind]; destruct (in_dec (list_eq_dec Nat.eq_dec) o l) as [Hin|Hin]; auto.
  - exfalso. apply Hin. destruct j; [lia|]. exact (nth_error_In l j Ho).
  - exfalso. apply In_nth_error in Hin as (k & Hk). assert (k < length l) by (exact (nth_lt Hk)). apply (Hf (S k)); [lia|exact Hk].
Qed.
Lemma nth_error_removelast {A} (l : list A) k : S k < length l -> nth_error (removelast l) k = nth_error l k.
Proof.
  revert k. induction l as [|a l IH]; intros k H; cbn in H; [lia|]. destruct l as [|b l]; [cbn in H; lia|]. destruct k as [|k]; [reflexivity|]. cbn [removelast nth_error].
  apply IH. cbn in *. lia.
Qed.
Lemma length_removelast {A} (l : list A) : length (removelast l) = length l - 1.
Proof. induction l as [|a [|b l] IH]; auto. change (removelast (a :: b :: l)) with (a :: removelast (b :: l)). cbn [length] in *. lia. Qed.
Lemma with_value_spec {A} (argv : list word) (o : word) (f : word -> outcome A) d :
  (exists v, has_value argv o v /\ with_value argv o f d = f v) \/ (no_value argv o /\ with_value argv o f d = Value d).
Proof.
  unfold with_value, argc. destruct argv as [|p l]; [right; split; [intros []|reflexivity]|]. replace (length (p :: l) - 1 - 1) with (length l - 1) by (cbn [length]; lia).
  destruct (@scan_spec (p :: l) o (length l - 1) 1) as [(j & -> & Hj & Ho & Hf)|(-> & Hf)]; [cbn; lia| |]; cbn [obind].
  - left. destruct j as [|j]; [lia|]. cbn [nth_error] in Ho. apply nth_error_split in Ho as (pre & post & -> & Hl). rewrite app_length in Hj. cbn [length] in Hj.
    destruct post as [|v post]; [cbn in Hj; lia|]. exists v. split.
    + exists p, pre, post. split; auto. intros Hin. apply In_nth_error in Hin as (k & Hk). assert (k < length pre) by (exact (nth_lt Hk)).
      apply (Hf (S k)); [lia|]. cbn [nth_error]. now rewrite nth_error_app1.
    + assert (Q : nth_error (p :: pre ++ o :: v :: post) (S j + 1) = Some v).
      { replace (S j + 1) with (S (S (length pre))) by lia. clear. cbn. induction pre; cbn; auto. }
      unfold at_arg. rewrite Q. reflexivity.
  - right. split; auto. unfold no_value. cbn [tl]. intros Hin. apply In_nth_error in Hin as (k & Hk). assert (Hlt : k < @length word l - 1) by (rewrite <- (@length_removelast word l); exact (nth_lt Hk)).
    assert (Hk' : @nth_error word l k = Some o) by (rewrite <- (@nth_error_removelast word) by lia; exact Hk). apply (Hf (S k)); [lia|exact Hk'].
Qed.
Lemma value_excl argv o v : has_value argv o v -> no_value argv o -> False.
Proof.
  intros (p & pre & post & -> & _) H. apply H. cbn [tl]. rewrite removelast_app by discriminate. apply in_or_app. right. cbn. now left.
Qed.
Lemma value_fun argv o v v' : has_value argv o v -> has_value argv o v' -> v = v'.
Proof.
  intros (p & pre & post & -> & Hn) (p' & pre' & post' & E & Hn'). assert (E' := f_equal (@tl _) E). cbn [tl] in E'. clear E. revert pre' Hn' E'. induction pre as [|a pre IH]; intros [|a' pre'] Hn' E'; cbn in E'; inversion E'; subst; auto.
  - destruct Hn'. now left.
  - destruct Hn. now left.
  - apply IH with pre'; auto; intros Hin; [apply Hn|apply Hn']; now right.
Qed.

(* ---------- numbers ---------- *)
Lemma is_digit_iff c : is_digit c = true <-> digit c.
Proof. unfold is_digit, digit. rewrite andb_true_iff, !Nat.leb_le. tauto. Qed.
Lemma is_space_iff c : is_space c = true <-> space c.
Proof. unfold is_space, space. rewrite orb_true_iff, andb_true_iff, !Nat.leb_le, Nat.eqb_eq. tauto. Qed.
Lemma read_digits_app ds rest : Forall digit ds -> (forall c r, rest = c :: r -> ~ digit c) ->
  forall acc, read_digits acc (ds ++ rest) = (acc * 10 ^ Z.of_nat (length ds) + decimal ds)%Z.
Proof.
  intros Hd Hr. induction Hd as [|c ds Hc Hd IH]; intros acc; cbn [app read_digits decimal length].
  - rewrite Z.pow_0_r. destruct rest as [|c r]; cbn; [lia|]. destruct (is_digit c) eqn:Ec; [|lia]. apply is_digit_iff in Ec. destruct (Hr c r eq_refl Ec).
  - rewrite (proj2 (is_digit_iff c) Hc), IH. rewrite Nat2Z.inj_succ, Z.pow_succ_r by lia. ring.
Qed.
Lemma skip_spaces_app sp w : Forall space sp -> (forall c r, w = c :: r -> ~ space c) -> skip_spaces (sp ++ w) = w.
Proof.
  intros Hs Hw. induction Hs as [|c sp Hc Hs IH]; cbn [app skip_spaces]; [|now rewrite (proj2 (is_space_iff c) Hc)].
  destruct w as [|c r]; auto. cbn. destruct (is_space c) eqn:Ec; auto. apply is_space_iff in Ec. destruct (Hw c r eq_refl Ec).
Qed.
Lemma read_starts w z : starts_with w z -> read_number w = z.
Proof.
  intros [sp sign ds rest Hs Hd Hne Hr Hsg]. unfold read_number. destruct ds as [|c ds]; [congruence|]. pose proof (Forall_inv Hd) as Hc. unfold digit in Hc.
  rewrite skip_spaces_app; auto.
  - destruct Hsg as [->|[->| ->]]; cbn [app]; cbn [Nat.eqb]; cbn [list_eq_dec Nat.eq_dec].
    + rewrite (proj2 (Nat.eqb_neq c 45)), (proj2 (Nat.eqb_neq c 43)) by lia. change (c :: ds ++ rest) with ((c :: ds) ++ rest). rewrite read_digits_app; auto.
    + change (c :: ds ++ rest) with ((c :: ds) ++ rest). rewrite read_digits_app by auto. destruct (list_eq_dec Nat.eq_dec _ _) as [X|X]; [try discriminate|try congruence]; lia.
    + change (c :: ds ++ rest) with ((c :: ds) ++ rest). rewrite read_digits_app by auto. destruct (list_eq_dec Nat.eq_dec _ _) as [X|X]; [try discriminate|try congruence]; lia.
  - intros c0 r E. unfold space. destruct Hsg as [->|[->| ->]]; cbn in E; inversion E; subst; lia.
Qed.
Lemma split_spaces w : exists sp, w = sp ++ skip_spaces w /\ Forall space sp /\ forall c r, skip_spaces w = c :: r -> ~ space c.
Proof.
  induction w as [|c w (sp & E & Hs & Hn)]; [exists []; repeat split; auto; discriminate|]. cbn [skip_spaces]. destruct (is_space c) eqn:Ec.
  - exists (c :: sp). cbn. rewrite <- E. repeat split; auto. constructor; auto. now apply is_space_iff.
  - exists []. repeat split; auto. intros c' r E'. inversion E'; subst. rewrite <- is_space_iff, Ec. discriminate.
Qed.
Lemma split_digits w : exists ds rest, w = ds ++ rest /\ Forall digit ds /\ forall c r, rest = c :: r -> ~ digit c.
Proof.
  induction w as [|c w (ds & rest & E & Hd & Hn)]; [exists [], []; repeat split; auto; discriminate|]. destruct (is_digit c) eqn:Ec.
  - exists (c :: ds), rest. subst w. repeat split; auto. constructor; auto. now apply is_digit_iff.
  - exists [], (c :: w). repeat split; auto. intros c' r E'. inversion E'; subst. rewrite <- is_digit_iff, Ec. discriminate.
Qed.
Lemma read_digits_none rest : (forall c r, rest = c :: r -> ~ digit c) -> read_digits 0 rest = 0%Z.
Proof. intros H. rewrite <- (app_nil_l rest). rewrite read_digits_app; auto. Qed.
Lemma starts_skip w y : starts_with w y -> exists sign d ds rest, skip_spaces w = sign ++ (d :: ds) ++ rest /\ digit d /\ (sign = [] \/ sign = [43] \/ sign = [45]).
Proof.
  intros [sp sign ds rest Hs Hd Hne Hr Hsg]. destruct ds as [|d ds]; [congruence|]. pose proof (Forall_inv Hd) as Hc. exists sign, d, ds, rest. split; [|auto].
  apply skip_spaces_app; auto. unfold digit in Hc. intros c0 r E1. unfold space. destruct Hsg as [->|[->| ->]]; cbn in E1; inversion E1; subst; lia.
Qed.
Lemma read_number_spec w : number_of w (read_number w).
Proof.
  destruct (split_spaces w) as (sp & E & Hs & Hn).
  assert (D : (exists z, starts_with w z) \/ read_number w = 0%Z).
  { unfold read_number. destruct (skip_spaces w) as [|c r] eqn:Ek; [now right|].
    assert (G : forall sign x, c :: r = sign ++ x -> sign = [] \/ sign = [43] \/ sign = [45] -> (exists z, starts_with w z) \/ read_digits 0 x = 0%Z).
    { intros sign x Ex Hsg. destruct (split_digits x) as (ds & rest & -> & Hd & Hr). destruct ds as [|d ds].
      - right. now apply read_digits_none.
      - left. eexists. rewrite E, Ex. eapply number_is; eauto. discriminate. }
    destruct (Nat.eqb_spec c 45) as [->|]; [|destruct (Nat.eqb_spec c 43) as [->|]].
    - destruct (G [45] r eq_refl) as [X|X]; auto. right. rewrite X. reflexivity.
    - destruct (G [43] r eq_refl) as [X|X]; auto.
    - destruct (G [] (c :: r) eq_refl) as [X|X]; auto. }
  destruct D as [(z & Hz)|D].
  - left. now rewrite (read_starts Hz).
  - destruct (Z.eq_dec (read_number w) 0) as [E0|]; [|contradiction]. unfold number_of.
    assert (Dec : (exists z, starts_with w z) \/ forall y, ~ starts_with w y).
    { destruct (skip_spaces w) as [|c r] eqn:Ek.
      - right. intros y Hy. destruct (starts_skip Hy) as (sign & d & ds & rest & E1 & _). rewrite Ek in E1. destruct sign; discriminate.
      - set (sx := if c =? 45 then ([45], r) else if c =? 43 then ([43], r) else ([], c :: r)).
        assert (Sx : c :: r = fst sx ++ snd sx /\ (fst sx = [] \/ fst sx = [43] \/ fst sx = [45]) /\ (fst sx = [] -> c <> 43 /\ c <> 45)).
        { unfold sx. destruct (Nat.eqb_spec c 45) as [->|]; [cbn; repeat split; auto; discriminate|]. destruct (Nat.eqb_spec c 43) as [->|]; cbn; repeat split; auto; discriminate. }
        destruct Sx as (S1 & S2 & S3). destruct (split_digits (snd sx)) as (ds & rest & Ed & Hd & Hr). destruct ds as [|d ds].
        + right. intros y Hy. destruct (starts_skip Hy) as (sign & d & ds' & rest' & E1 & Hc & Hsg'). rewrite Ek in E1. cbn in Ed. rewrite Ed in S1. unfold digit in *.
          destruct Hsg' as [->|[->| ->]]; cbn in E1; inversion E1; subst.
          * apply (Hr d (ds' ++ rest')); [|lia]. destruct S2 as [S2|[S2|S2]]; rewrite S2 in S1; cbn in S1; [auto|inversion S1; subst; lia|inversion S1; subst; lia].
          * apply (Hr d (ds' ++ rest')); [|lia]. destruct S2 as [S2|[S2|S2]]; [destruct (S3 S2); congruence| |]; rewrite S2 in S1; cbn in S1; inversion S1; auto.
          * apply (Hr d (ds' ++ rest')); [|lia]. destruct S2 as [S2|[S2|S2]]; [destruct (S3 S2); congruence| |]; rewrite S2 in S1; cbn in S1; inversion S1; auto.
        + left. eexists. rewrite E, S1, Ed. eapply number_is; eauto. discriminate. }
    destruct Dec as [(z & Hz)|Dec]; [left; now rewrite (read_starts Hz)|right; auto].
Qed.
Lemma number_fun w y z : number_of w y -> number_of w z -> y = z.
Proof. intros [A|[A ->]] [B|[B ->]]; auto; [now rewrite <- (read_starts A), <- (read_starts B)|destruct (B _ A)|destruct (A _ B)]. Qed.
