(* The bucketing structure as SetCover uses it: decreasing order, identifiers leave it for good
   or are put back after they were returned. *)
From Coq Require Import ZArith.
From Verif Require Import Base ListUtil BKModel BKSpec BKProofs CVModel.
Local Open Scope nat_scope.
Unset Strict Implicit.

Section B.
  Variables o null n : nat.
  Hypothesis Ho : 0 < o.
  Notation good := (good false o null).
  Notation K2 := (K2 false o).

  Record BKI (t : nat) (s : bst) (d : nat -> nat) (due : nat -> bool) (last : nat) : Prop := {
    bi_good : good t s d due last;
    bi_k2 : K2 t s d due
  }.

  Lemma BKI_ext t s d d' due due' last : (forall v, d' v = d v) -> (forall v, due' v = due v) ->
    BKI t s d due last -> BKI t s d' due' last.
  Proof.
    intros Ed Eu [[[]] []]. constructor; [constructor; [constructor|..]|]; auto.
    - intros v. rewrite Ed. auto.
    - intros j v Hjv. rewrite Ed. eauto.
    - intros v Hv. rewrite Eu in Hv. rewrite !Ed. auto.
    - intros v Hv. rewrite Eu in Hv. rewrite !Ed. auto.
    - intros v Hv. rewrite Eu in Hv. rewrite Ed. auto.
    - constructor; auto. intros j v Hv. rewrite Eu, Ed. auto.
  Qed.

  (* leaving: identifiers that are not in the structure may be given the null bucket *)
  Lemma BKI_drop t s d d' due last : (forall v, due v = true -> d' v = d v) ->
    (forall v, d' v = d v \/ d' v = null) -> BKI t s d due last -> BKI t s d' due last.
  Proof.
    intros E1 E2 [[[]] [K1' K2']]. constructor; [constructor; [constructor|..]|]; auto.
    - intros v. destruct (E2 v) as [->| ->]; auto.
    - intros j v Hjv. rewrite E1; [eauto|]. apply (K2' j v Hjv).
    - intros v Hv. rewrite !E1 by auto. auto.
    - intros v Hv Hlt. destruct (E2 v) as [E|E]; [|lia]. rewrite !E in *. auto.
    - intros v Hv. rewrite E1 by auto. auto.
    - constructor; auto. intros j v Hv. destruct (K2' j v Hv) as [A B]. rewrite E1 by auto. auto.
  Qed.

  Lemma BKI_next t s d due last fuel b L s' : BKI t s d due last ->
    next_bucket false o fuel d s = Ret (Some (b, L)) s' ->
    NoDup L /\ L <> [] /\ (forall v, In v L <-> due v = true /\ d v = b) /\
    (forall v, due v = true -> d v <= b) /\ b <= last /\
    BKI t s' d (fun v => due v && negb (mem v L)) b.
  Proof.
    intros [G K] E. pose proof (good_answer Ho d fuel G E) as (A1 & A2 & A3 & A4). simpl in A3, A4.
    destruct (@next_K false o null n Ho d (fun _ => requeue) K2 (@K2_keeps false o null n Ho d) t fuel s d due _ s' (G_inv G) K E)
      as (s0 & H0 & K0 & -> & EL & Hne & ->).
    split; [rewrite EL; apply NoDup_filter', K0|]. split; [auto|]. split; [auto|]. split; [auto|]. split; [auto|].
    constructor.
    - constructor.
      + rewrite EL. now apply extract_inv.
      + change (pos false o t (extracted s0)) with (pos false o t s0).
        rewrite cur_num_P; [apply Z.le_refl|exact Ho|exact (J_r H0)|exact (J_cur H0)].
      + intros v Hv. apply andb_prop in Hv as [Hv _]. rewrite cur_num_P; [|exact Ho|exact (J_r H0)|exact (J_cur H0)]. apply (J_due H0), Hv.
    - rewrite EL. exact (K_extract (@K2_keeps false o null n Ho d) H0 K0).
  Qed.

  Lemma BKI_none t s d due last fuel s' : BKI t s d due last ->
    next_bucket false o fuel d s = Ret None s' -> forall v, due v = false.
  Proof. intros [G _] E. exact (good_answer Ho d fuel G E). Qed.

  Lemma BKI_ends t s d due last : BKI t s d due last -> exists fuel r s', next_bucket false o fuel d s = Ret r s'.
  Proof. intros [G _]. exact (good_ends Ho G). Qed.

  Lemma BKI_moves t s d due last ms : BKI t s d due last -> NoDup (map mv_id ms) ->
    (forall m, In m ms -> due (mv_id m) = false /\ mv_next m < null /\ mv_next m <= last /\ mv_one_arg m = true) ->
    BKI t (update_seq (batch false o null s d ms) s) (moved ms d) (fun v => due v || mem v (map mv_id ms)) last.
  Proof.
    intros [G K] Hnd Hms.
    assert (Hl : forall m, In m ms -> legal false null d due last m /\ requeue due m).
    { intros m Hm. destruct (Hms m Hm) as (A & B & C & _). split; [|exact A]. split; [auto|]. split; [exact C|]. discriminate. }
    constructor; [|exact (K_move (@K2_keeps false o null n Ho d) ms G K Hnd Hl)]. constructor.
    - exact (move_inv Ho ms (G_inv G) (G_pos G) Hnd (fun m Hm => proj1 (Hl m Hm))).
    - assert (Hf := @batch_fits false o null t Ho s d due ms (G_inv G)). destruct (update_seq_ok s Hf) as (_ & U2 & U3 & _). unfold BKProofs.pos. rewrite U2, U3. apply G.
    - intros v Hv. destruct (in_dec Nat.eq_dec v (map mv_id ms)) as [Hin|Hin].
      + apply in_map_iff in Hin as (m & <- & Hm). rewrite moved_in by auto. apply no_later_P; [exact Ho|]. now apply (Hl m Hm).
      + rewrite moved_out by auto. apply orb_prop in Hv as [Hv|Hv]; [now apply G|]. apply mem_In in Hv. tauto.
  Qed.

  Lemma update_seq_none f L : forall s0 s : bst,
    update_seq (map (fun v => (v, if f v =? null then None else get_bucket1 false o s0 (f v))) L) s =
    update_seq (map (fun v => (v, get_bucket1 false o s0 (f v))) (filter (fun v => negb (f v =? null)) L)) s.
  Proof.
    induction L as [|v L IH]; intros s0 s; simpl; auto. destruct (f v =? null); simpl; apply IH.
  Qed.

  Lemma BKI_rebucket t s d due last d' L : BKI t s d due last -> NoDup L ->
    (forall v, In v L -> due v = false) -> (forall v, ~ In v L -> d' v = d v) ->
    (forall v, In v L -> d' v = null \/ d' v < null /\ d' v <= last) ->
    BKI t (rebucket o null d' L s) d' (fun v => due v || mem v L && negb (d' v =? null)) last.
  Proof.
    intros H Hnd Hdue Hout Hin.
    set (d1 := fun v => if mem v L && (d' v =? null) then null else d v).
    set (ms := map (fun v => {| mv_id := v; mv_next := d' v; mv_one_arg := true |}) (filter (fun v => negb (d' v =? null)) L)).
    assert (Hids : map mv_id ms = filter (fun v => negb (d' v =? null)) L) by (unfold ms; rewrite map_map; apply map_id).
    assert (H1 : BKI t s d1 due last).
    { eapply BKI_drop; [| |exact H]; unfold d1.
      - intros v Hv. destruct (mem v L) eqn:E; auto. apply mem_In in E. rewrite Hdue in Hv by auto. discriminate.
      - intros v. destruct (mem v L && (d' v =? null)); auto. }
    assert (Hnd' : NoDup (map mv_id ms)) by (rewrite Hids; now apply NoDup_filter').
    assert (H2 : BKI t (update_seq (batch false o null s d1 ms) s) (moved ms d1) (fun v => due v || mem v (map mv_id ms)) last).
    { apply BKI_moves; auto. intros m Hm. unfold ms in Hm. apply in_map_iff in Hm as (v & <- & Hv). simpl.
      apply filter_In in Hv as [Hv E]. apply negb_true_iff, Nat.eqb_neq in E. destruct (Hin v Hv) as [|[]]; [tauto|]. auto. }
    assert (E : batch false o null s d1 ms = map (fun v => (v, get_bucket1 false o s (d' v))) (filter (fun v => negb (d' v =? null)) L)).
    { unfold batch, ms. rewrite map_map. reflexivity. }
    unfold rebucket. rewrite update_seq_none, <- E. eapply BKI_ext; [| |exact H2].
    - intros v. destruct (in_dec Nat.eq_dec v (map mv_id ms)) as [Hv|Hv].
      + apply in_map_iff in Hv as (m & <- & Hm). rewrite moved_in by auto. unfold ms in Hm. apply in_map_iff in Hm as (w & <- & _). reflexivity.
      + rewrite moved_out by auto. unfold d1. rewrite Hids in Hv. destruct (mem v L) eqn:Em; simpl.
        * apply mem_In in Em. destruct (Nat.eqb_spec (d' v) null) as [E0|E0]; auto. exfalso. apply Hv, filter_In. split; auto.
          apply negb_true_iff. now apply Nat.eqb_neq.
        * apply Hout. intros Hi. apply mem_In in Hi. congruence.
    - intros v. f_equal. rewrite Hids. destruct (mem v (filter _ L)) eqn:Em.
      + apply mem_In, filter_In in Em as [A B]. apply mem_In in A. now rewrite A, B.
      + destruct (mem v L) eqn:E2; auto. destruct (negb (d' v =? null)) eqn:E3; auto. exfalso.
        assert (X : mem v (filter (fun v => negb (d' v =? null)) L) = true); [|congruence].
        apply mem_In, filter_In. apply mem_In in E2. auto.
  Qed.

  Lemma BKI_make d : (forall j, d j <= null) -> (forall j, n <= j -> d j = null) -> (exists i, i < n /\ d i < null) ->
    exists t last, BKI t (make false o null n d) d (fun v => (v <? n) && (d v <? null)) last.
  Proof.
    intros Hle Hout (i & Hi & Hd).
    assert (Hx : forall k, k <= n -> (exists i, i < k /\ d i < null) -> exists i, i < k /\ d i < null /\ forall j, j < k -> d j < null -> d j <= d i).
    { induction k as [|k IH]; intros Hk (j & Hj & Hjn); [lia|].
      destruct (Nat.eq_dec (d k) null) as [E|E].
      - destruct IH as (i' & A & B & C); [lia|exists j; assert (j <> k) by (intros ->; lia); split; auto; lia|].
        exists i'. repeat split; auto. intros x Hx Hxn. assert (x <> k) by (intros ->; lia). apply C; auto. lia.
      - specialize (Hle k). destruct (le_lt_dec n 0); [lia|].
        destruct (existsb (fun x => d x <? null) (seq 0 k)) eqn:Ee.
        + apply existsb_exists in Ee as (x & Hx & Hxn). apply in_seq in Hx. apply Nat.ltb_lt in Hxn.
          destruct IH as (i' & A & B & C); [lia|exists x; split; auto; lia|].
          destruct (le_lt_dec (d k) (d i')).
          * exists i'. repeat split; auto. intros y Hy Hyn. destruct (Nat.eq_dec y k) as [->|]; auto. apply C; auto; lia.
          * exists k. repeat split; try lia. intros y Hy Hyn. destruct (Nat.eq_dec y k) as [->|]; auto. specialize (C y). lia.
        + exists k. repeat split; try lia. intros y Hy Hyn. destruct (Nat.eq_dec y k) as [->|]; auto. exfalso.
          assert (X : existsb (fun x => d x <? null) (seq 0 k) = true); [|congruence].
          apply existsb_exists. exists y. split; [apply in_seq; lia|]. now apply Nat.ltb_lt. }
    destruct (Hx n (le_n _) (ex_intro _ i (conj Hi Hd))) as (i' & Hi' & Hd' & Hf).
    pose proof (@run_start false o null n d (fun _ => requeue) i' Hi' Hd' Hle Hf Hout) as Hr.
    destruct (run_good Ho (@K2_keeps false o null n Ho d) Hr) as (t & G & K). exists t, (d i'). now constructor.
  Qed.

  Lemma make_none d fuel : (forall j, d j = null) -> next_bucket false o (S fuel) d (make false o null n d) = Ret None (make false o null n d).
  Proof.
    intros H. assert (E : nelm (make false o null n d) = 0).
    { assert (X : forall r l s, nelm (update_seq (map (fun i => (i, if d i =? null then None else to_range false o r (d i))) l) s) = nelm s).
      { intros r. induction l as [|x l IH]; intros s; simpl; auto. rewrite IH. rewrite (H x), Nat.eqb_refl. reflexivity. }
      unfold make. cbv zeta. rewrite X. reflexivity. }
    cbn [next_bucket]. rewrite E. simpl. rewrite andb_false_r. reflexivity.
  Qed.
End B.
