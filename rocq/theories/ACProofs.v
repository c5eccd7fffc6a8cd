(* Proofs for C92. *)
From Coq Require Import ZArith Lia Permutation.
From Verif Require Import Base ACModel ACSpec.
Unset Strict Implicit.

Section Sum.
  Variables M szT p : nat.
  Hypothesis HM : M <> 0.
  Notation slot := (slot szT).

  Lemma slot_lt i : i < p -> slot i < slot p.
  Proof. intros H. unfold ACModel.slot. rewrite !Nat.shiftl_mul_pow2. apply Nat.mul_lt_mono_pos_r; auto. apply Nat.neq_0_lt_0, Nat.pow_nonzero. lia. Qed.
  Lemma slot_inj i j : slot i = slot j -> i = j.
  Proof. unfold ACModel.slot. rewrite !Nat.shiftl_mul_pow2. apply Nat.mul_cancel_r. apply Nat.pow_nonzero. lia. Qed.
  Lemma write_ok e k x : k < length e -> write_entry e k x = Some (lset e k (Some x)).
  Proof. intros H. unfold write_entry. now rewrite (proj2 (Nat.ltb_lt _ _) H). Qed.
  Lemma read_same e k x : k < length e -> read_entry (lset e k (Some x)) k = Some x.
  Proof. intros H. unfold read_entry. now rewrite nth_error_lset_same. Qed.
  Lemma read_other e k j x : k <> j -> read_entry (lset e k (Some x)) j = read_entry e j.
  Proof. intros H. unfold read_entry. now rewrite nth_error_lset_other. Qed.

  (* the entries of the workers hold the values f *)
  Definition holds (e : list (option nat)) (f : nat -> nat) : Prop := length e = slot p /\ forall i, i < p -> read_entry e (slot i) = Some (f i).
  Lemma zero_ok e : length e = slot p -> exists e', zero_entries szT p e = Some e' /\ holds e' (fun _ => 0).
  Proof.
    intros He. unfold zero_entries.
    assert (X : forall l e, length e = slot p -> (forall i, In i l -> i < p) -> exists e',
      fold_left (fun oe i => match oe with Some e => write_entry e (slot i) 0 | None => None end) l (Some e) = Some e' /\ length e' = slot p /\
      (forall i, In i l -> read_entry e' (slot i) = Some 0) /\ (forall i, ~ In i l -> read_entry e' (slot i) = read_entry e (slot i))).
    { induction l as [|a l IH]; intros e0 H0 Hl; cbn [fold_left]; [exists e0; repeat split; auto; intros i []|].
      rewrite write_ok by (rewrite H0; apply slot_lt, Hl; now left). destruct (IH (lset e0 (slot a) (Some 0))) as (e' & E & L & A & B).
      - now rewrite length_lset.
      - intros i Hi. apply Hl. now right.
      - exists e'. split; auto. split; auto. split.
        + intros i [<-|Hi]; [|auto]. destruct (in_dec Nat.eq_dec a l) as [Ha|Ha]; [auto|]. rewrite B by auto. apply read_same. rewrite H0. apply slot_lt, Hl. now left.
        + intros i Hi. rewrite B by (intros Hx; apply Hi; now right). apply read_other. intros Hs. apply Hi. left. now apply slot_inj. }
    destruct (X (seq 0 p) e He) as (e' & E & L & A & _); [intros i Hi; apply in_seq in Hi; lia|]. exists e'. split; auto. split; auto. intros i Hi. apply A, in_seq. lia.
  Qed.
  Lemma init_ok : exists e, initialize szT p = Some e /\ holds e (fun _ => 0).
  Proof. apply zero_ok, repeat_length. Qed.

  Definition vsum (f : nat -> nat) (i n : nat) : nat := list_sum (map f (seq i n)).
  Lemma sum_from_ok e f : holds e f -> forall n i s, i + n <= p -> sum_from M szT e n i (s mod M) = Some ((s + vsum f i n) mod M).
  Proof.
    intros [_ H]. induction n as [|n IH]; intros i s Hi; cbn [sum_from]; [unfold vsum; cbn; now rewrite Nat.add_0_r|].
    rewrite H by lia. rewrite Nat.add_mod_idemp_l by auto. rewrite IH by lia. unfold vsum. cbn [seq map list_sum fold_right]. f_equal. f_equal. unfold list_sum. lia.
  Qed.
  Lemma get_ok e f : holds e f -> get_value M szT p e = Some (vsum f 0 p mod M).
  Proof. intros H. unfold get_value. replace 0 with (0 mod M) at 2 by (apply Nat.mod_0_l; auto). now rewrite (sum_from_ok H) by lia. Qed.

  (* c i: what worker i has added so far *)
  Definition winv (tot : nat -> nat) (e : list (option nat)) (i : nat) (w : upc) : Prop :=
    pending w <= tot i /\ read_entry e (slot i) = Some ((tot i - pending w) mod M) /\ match w with Loaded v _ _ => v = (tot i - pending w) mod M | _ => True end.
  Record cinv (tot : nat -> nat) (s : cstate) : Prop := {
    c_len : length (ent s) = slot p;
    c_wk : length (wk s) = p;
    c_i : forall i w, nth_error (wk s) i = Some w -> winv tot (ent s) i w }.
  Definition cur (tot : nat -> nat) (s : cstate) (i : nat) : nat := tot i - match nth_error (wk s) i with Some w => pending w | None => 0 end.
  Lemma cinv_step tot s t : cinv tot s -> exists s', cstep M szT p s t = Some s' /\ cinv tot s' /\ (forall i, cur tot s i <= cur tot s' i) /\
    (match t with None => ent s' = ent s /\ wk s' = wk s /\ rd s' = (if fst (rd s) <? p then (S (fst (rd s)), (snd (rd s) + cur tot s (fst (rd s)) mod M) mod M) else rd s) | Some _ => rd s' = rd s end).
  Proof.
    intros HI. destruct t as [i|]; cbn [cstep].
    - destruct (nth_error (wk s) i) as [w|] eqn:Ew; [|exists s; auto]. assert (Hi : i < p) by (rewrite <- (c_wk HI); apply nth_error_Some; rewrite Ew; discriminate).
      destruct (c_i HI Ew) as (W1 & W2 & W3). assert (Hl : i < length (wk s)) by (rewrite (c_wk HI); auto).
      destruct w as [[|x xs]|v x xs]; [exists s; auto| |].
      + rewrite W2. eexists. split; [reflexivity|]. split; [split; cbn [ent wk]; [apply (c_len HI)|rewrite length_lset; apply (c_wk HI)|]|split; [|reflexivity]].
        * intros j w Hj. destruct (Nat.eq_dec i j) as [<-|Hne]; [rewrite nth_error_lset_same in Hj by auto|rewrite nth_error_lset_other in Hj by auto; now apply (c_i HI)].
          inversion Hj; subst w. split; [exact W1|]. split; [exact W2|reflexivity].
        * intros j. unfold cur. cbn [wk]. destruct (Nat.eq_dec i j) as [<-|Hne]; [rewrite nth_error_lset_same, Ew by auto; auto|now rewrite nth_error_lset_other by auto].
      + cbn [pending] in *. subst v. assert (Hs : slot i < length (ent s)) by (rewrite (c_len HI); now apply slot_lt).
        rewrite write_ok, Nat.add_mod_idemp_l by auto. eexists. split; [reflexivity|]. split; [split; cbn [ent wk]; [rewrite length_lset; apply (c_len HI)|rewrite length_lset; apply (c_wk HI)|]|split; [|reflexivity]].
        * intros j w Hj. destruct (Nat.eq_dec i j) as [<-|Hne]; [rewrite nth_error_lset_same in Hj by auto|rewrite nth_error_lset_other in Hj by auto].
          -- inversion Hj; subst w. unfold winv. cbn [pending]. split; [lia|]. split; auto. rewrite read_same by auto. do 2 f_equal. lia.
          -- destruct (c_i HI Hj) as (A & B & D). split; auto. split; auto. rewrite read_other; auto. intros Hx. apply Hne. now apply slot_inj.
        * intros j. unfold cur. cbn [wk]. destruct (Nat.eq_dec i j) as [<-|Hne]; [rewrite nth_error_lset_same, Ew by auto; cbn [pending]; lia|now rewrite nth_error_lset_other by auto].
    - destruct (Nat.ltb_spec (fst (rd s)) p) as [Hr|Hr]; [|exists s; auto 6].
      destruct (nth_error (wk s) (fst (rd s))) as [w|] eqn:Ew; [|apply nth_error_None in Ew; rewrite (c_wk HI) in Ew; lia]. destruct (c_i HI Ew) as (W1 & W2 & W3). rewrite W2.
      eexists. split; [reflexivity|]. split; [split; cbn [ent wk]; [apply (c_len HI)|apply (c_wk HI)|apply (c_i HI)]|]. split; [intros j; unfold cur; cbn [wk]; auto|]. cbn [ent wk rd]. repeat split. unfold cur. now rewrite Ew.
  Qed.
  Lemma cexec_cons sched s t : cexec M szT p (t :: sched) s = match cstep M szT p s t with Some s' => cexec M szT p sched s' | None => None end.
  Proof.
    unfold cexec. cbn [fold_left]. destruct (cstep M szT p s t); auto. induction sched; cbn; auto.
  Qed.
  Lemma cexec_app s1 s2 s : cexec M szT p (s1 ++ s2) s = match cexec M szT p s1 s with Some s' => cexec M szT p s2 s' | None => None end.
  Proof.
    revert s. induction s1 as [|t s1 IH]; intros s; [reflexivity|]. cbn [app]. rewrite !cexec_cons. destruct (cstep M szT p s t); auto.
  Qed.
  Lemma cinv_exec tot sched : forall s, cinv tot s -> exists s', cexec M szT p sched s = Some s' /\ cinv tot s' /\ forall i, cur tot s i <= cur tot s' i.
  Proof.
    induction sched as [|t sched IH]; intros s HI; [exists s; auto|]. rewrite cexec_cons. destruct (cinv_step t HI) as (s1 & -> & HI1 & L1 & _).
    destruct (IH s1 HI1) as (s2 & E & HI2 & L2). exists s2. split; auto. split; auto. intros i. specialize (L1 i). specialize (L2 i). lia.
  Qed.
  Lemma holds_cur tot s : cinv tot s -> holds (ent s) (fun i => cur tot s i mod M).
  Proof.
    intros HI. split; [apply (c_len HI)|]. intros i Hi. destruct (nth_error (wk s) i) as [w|] eqn:Ew; [|apply nth_error_None in Ew; rewrite (c_wk HI) in Ew; lia].
    destruct (c_i HI Ew) as (_ & W & _). unfold cur. now rewrite Ew.
  Qed.
  Lemma vsum_mod f i n : vsum (fun j => f j mod M) i n mod M = vsum f i n mod M.
  Proof.
    unfold vsum. revert i. induction n as [|n IH]; intros i; auto. cbn [seq map list_sum fold_right]. fold (list_sum (map (fun j => f j mod M) (seq (S i) n))). fold (list_sum (map f (seq (S i) n))).
    rewrite Nat.add_mod_idemp_l by auto. rewrite <- Nat.add_mod_idemp_r, IH, Nat.add_mod_idemp_r by auto. reflexivity.
  Qed.
  Definition tot_of (xss : list (list nat)) (i : nat) : nat := list_sum (nth i xss []).
  Lemma start_inv e xss : holds e (fun _ => 0) -> length xss = p -> cinv (tot_of xss) (cstart e xss).
  Proof.
    intros [He H] Hx. split; cbn [cstart ent wk]; auto; [now rewrite map_length|]. intros i w Hw. rewrite nth_error_map in Hw. destruct (nth_error xss i) as [xs|] eqn:Ex; [|discriminate].
    inversion Hw; subst w. assert (Hi : i < p) by (rewrite <- Hx; apply nth_error_Some; rewrite Ex; discriminate). unfold winv, tot_of. cbn [pending]. rewrite (nth_error_nth _ _ [] Ex), Nat.sub_diag, Nat.mod_0_l by auto. auto.
  Qed.
  Lemma sum_split (g f : nat -> nat) l : (forall i, In i l -> g i <= f i) -> list_sum (map (fun i => f i - g i) l) + list_sum (map g l) = list_sum (map f l).
  Proof.
    induction l as [|a l IH]; intros G; auto. cbn [map]. specialize (IH (fun i Hi => G i (or_intror Hi))). specialize (G a (or_introl eq_refl)). unfold list_sum in *. cbn [fold_right]. lia.
  Qed.
  Lemma cur_total xss s : length xss = p -> cinv (tot_of xss) s -> vsum (cur (tot_of xss) s) 0 p + to_come s = grand_total xss.
  Proof.
    intros Hx HI. unfold vsum, to_come, grand_total, cur.
    assert (E1 : map (@list_sum) xss = map (tot_of xss) (seq 0 p)).
    { rewrite <- Hx. unfold tot_of. clear. induction xss as [|x l IH]; auto. cbn [map length seq nth]. f_equal. rewrite <- seq_shift, map_map. exact IH. }
    assert (E2 : map pending (wk s) = map (fun i => match nth_error (wk s) i with Some w => pending w | None => 0 end) (seq 0 p)).
    { rewrite <- (c_wk HI). clear. induction (wk s) as [|x l IH]; auto. cbn [map length seq nth_error]. f_equal. rewrite <- seq_shift, map_map. exact IH. }
    rewrite E1, E2. assert (G : forall i, In i (seq 0 p) -> match nth_error (wk s) i with Some w => pending w | None => 0 end <= tot_of xss i).
    { intros i _. destruct (nth_error (wk s) i) as [w|] eqn:Ew; [|lia]. apply (c_i HI Ew). }
    exact (sum_split G).
  Qed.
  Lemma vsum_le f g i n : (forall j, f j <= g j) -> vsum f i n <= vsum g i n.
  Proof. intros H. unfold vsum. revert i. induction n as [|n IH]; intros i; auto. cbn [seq map]. specialize (IH (S i)). specialize (H i). unfold list_sum in *. cbn [fold_right]. lia. Qed.
  Lemma vsum_snoc f n : vsum f 0 (S n) = vsum f 0 n + f n.
  Proof. unfold vsum. rewrite seq_S, map_app, list_sum_app. cbn. lia. Qed.
  Lemma vsum_more f m n : m <= n -> vsum f 0 m <= vsum f 0 n.
  Proof. induction 1 as [|n H IH]; auto. rewrite vsum_snoc. lia. Qed.
  (* the reader: with r workers looked at, the sum is between what these had added when it started and what they have now *)
  Lemma reader tot s0 sched : forall s, cinv tot s -> vsum tot 0 p < M -> (forall i, cur tot s0 i <= cur tot s i) ->
    fst (rd s) <= p -> vsum (cur tot s0) 0 (fst (rd s)) <= snd (rd s) <= vsum (cur tot s) 0 (fst (rd s)) ->
    forall s', cexec M szT p sched s = Some s' -> fst (rd s') <= p /\ vsum (cur tot s0) 0 (fst (rd s')) <= snd (rd s') <= vsum (cur tot s') 0 (fst (rd s')).
  Proof.
    induction sched as [|t sched IH]; intros s HI Hb Hc Hp Hr s' E; [inversion E; subst; auto|]. rewrite cexec_cons in E.
    destruct (cinv_step t HI) as (s1 & E1 & HI1 & L1 & R1). rewrite E1 in E. apply (IH s1); auto.
    - intros i. specialize (Hc i). specialize (L1 i). lia.
    - destruct t as [i|]; [now rewrite R1|]. destruct R1 as (_ & _ & ->). destruct (Nat.ltb_spec (fst (rd s)) p); cbn [fst]; lia.
    - destruct t as [i|].
      + rewrite R1. pose proof (@vsum_le (cur tot s) (cur tot s1) 0 (fst (rd s)) L1). lia.
      + destruct R1 as (_ & Ewk & ->). assert (Ec : forall i, cur tot s1 i = cur tot s i) by (intros i; unfold cur; now rewrite Ewk).
        assert (V : forall n, vsum (cur tot s1) 0 n = vsum (cur tot s) 0 n) by (intros n; unfold vsum; f_equal; apply map_ext; auto). rewrite !V.
        destruct (Nat.ltb_spec (fst (rd s)) p) as [Hlt|]; cbn [fst snd]; [|rewrite ?V; auto]. rewrite ?V, !vsum_snoc.
        assert (B : vsum (cur tot s) 0 (S (fst (rd s))) < M).
        { apply Nat.le_lt_trans with (vsum tot 0 p); auto. apply Nat.le_trans with (vsum tot 0 (S (fst (rd s)))).
          - apply vsum_le. intros j. unfold cur. lia.
          - apply vsum_more. exact Hlt. }
        rewrite vsum_snoc in B. rewrite (Nat.mod_small (cur tot s (fst (rd s)))) by lia. rewrite Nat.mod_small by lia. specialize (Hc (fst (rd s))). lia.
  Qed.
End Sum.

Lemma max_value_spec calls : (0 <= max_value calls)%Z /\ (forall v, In v calls -> (v <= max_value calls)%Z) /\ (max_value calls = 0%Z \/ In (max_value calls) calls).
Proof.
  unfold max_value. assert (X : forall l a, (a <= fold_left max_update l a)%Z /\ (forall v, In v l -> (v <= fold_left max_update l a)%Z) /\ (fold_left max_update l a = a \/ In (fold_left max_update l a) l)).
  { induction l as [|x l IH]; intros a; cbn [fold_left]; [split; [lia|split; [intros v []|auto]]|]. destruct (IH (max_update a x)) as (A & B & D).
    assert (U : (a <= max_update a x)%Z /\ (x <= max_update a x)%Z /\ (max_update a x = a \/ max_update a x = x)) by (unfold max_update; destruct (Z.ltb_spec a x); repeat split; auto; lia).
    destruct U as (U1 & U2 & U3). split; [lia|]. split; [intros v [<-|Hv]; [lia|auto]|]. destruct D as [D|D]; [|right; right; exact D]. rewrite D. destruct U3 as [->| ->]; [now left|right; now left]. }
  exact (X calls 0%Z).
Qed.
