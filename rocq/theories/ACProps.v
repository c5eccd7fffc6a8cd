(* Theorems for C92. *)
From Coq Require Import ZArith Lia Permutation.
From Verif Require Import Base ACModel ACSpec ACProofs.
Unset Strict Implicit.

Lemma fresh_holds M szT p e : M <> 0 -> fresh M szT p e -> holds szT p e (fun _ => 0).
Proof.
  intros HM. induction 1 as [e H|e xss sched s e' Hf IH Hx He Hr].
  - destruct (@init_ok M szT p HM) as (e1 & E & Hh). congruence.
  - destruct (@cinv_exec M szT p HM _ sched _ (start_inv HM IH Hx)) as (s1 & E1 & HI & _). assert (s1 = s) by congruence. subst s1.
    destruct (@zero_ok M szT p HM (ent s) (c_len HI)) as (e1 & E & Hh). unfold reset in Hr. congruence.
Qed.

(* initialize and reset never go wrong, and give the value 0 *)
Theorem C92_fresh : forall M szT p, M <> 0 ->
  (exists e, initialize szT p = Some e) /\
  (forall e, fresh M szT p e -> get_value M szT p e = Some 0) /\
  (forall e xss sched s, fresh M szT p e -> length xss = p -> cexec M szT p sched (cstart e xss) = Some s -> exists e', reset szT p (ent s) = Some e').
Proof.
  intros M szT p HM. split; [|split].
  - destruct (@init_ok M szT p HM) as (e & E & _). eauto.
  - intros e H. rewrite (get_ok HM (fresh_holds HM H)). f_equal. unfold vsum. assert (X : forall l : list nat, list_sum (map (fun _ => 0) l) = 0) by (induction l; auto). rewrite X. now apply Nat.mod_0_l.
  - intros e xss sched s H Hx He. destruct (@cinv_exec M szT p HM _ sched _ (start_inv HM (fresh_holds HM H) Hx)) as (s1 & E1 & HI & _). assert (s1 = s) by congruence. subst s1.
    destruct (@zero_ok M szT p HM (ent s) (c_len HI)) as (e1 & E & _). eauto.
Qed.

(* under every interleaving: no access out of bounds or of an uninitialised entry, and get_value is the sum of the updates
   made so far, so the sum of all once they are done (both modulo the range of T) *)
Theorem C92_sum : forall M szT p e xss sched, M <> 0 -> fresh M szT p e -> length xss = p ->
  exists s, cexec M szT p sched (cstart e xss) = Some s /\ to_come s <= grand_total xss /\
    get_value M szT p (ent s) = Some ((grand_total xss - to_come s) mod M) /\
    (all_done s -> get_value M szT p (ent s) = Some (grand_total xss mod M)).
Proof.
  intros M szT p e xss sched HM H Hx. destruct (@cinv_exec M szT p HM _ sched _ (start_inv HM (fresh_holds HM H) Hx)) as (s & E & HI & _).
  pose proof (cur_total HM Hx HI) as T. assert (G : get_value M szT p (ent s) = Some ((grand_total xss - to_come s) mod M)).
  { rewrite (get_ok HM (holds_cur HM HI)), (vsum_mod HM). do 2 f_equal. lia. }
  exists s. split; auto. split; [lia|]. split; auto. intros [Hd _]. rewrite G, Hd, Nat.sub_0_r. reflexivity.
Qed.

(* a value read while updates go on lies between the sum of the updates made when the reading starts and that when it ends *)
Theorem C92_concurrent_read : forall M szT p e xss before during s0 s1, fresh M szT p e -> length xss = p -> grand_total xss < M ->
  cexec M szT p (map (@Some nat) before) (cstart e xss) = Some s0 -> cexec M szT p during s0 = Some s1 -> fst (rd s1) = p ->
  grand_total xss - to_come s0 <= snd (rd s1) <= grand_total xss - to_come s1.
Proof.
  intros M szT p e xss before during s0 s1 H Hx Hg E0 E1 Hr. assert (HM : M <> 0) by lia.
  pose proof (start_inv HM (fresh_holds HM H) Hx) as HS.
  destruct (@cinv_exec M szT p HM _ (map (@Some nat) before) _ HS) as (s & E & HI0 & _). assert (s = s0) by congruence. subst s.
  destruct (@cinv_exec M szT p HM _ during _ HI0) as (s & E' & HI1 & _). assert (s = s1) by congruence. subst s.
  assert (R0 : rd s0 = (0, 0)).
  { clear - E0 HS HM. change (0, 0) with (rd (cstart e xss)). revert HS E0. generalize (cstart e xss) as s. induction before as [|i l IH]; intros s HS E; [cbn in E; congruence|].
    cbn [map] in E. rewrite cexec_cons in E. destruct (cinv_step HM (Some i) HS) as (s2 & E2 & HI2 & _ & R). rewrite E2 in E. rewrite <- R. now apply IH. }
  pose proof (cur_total HM Hx HI0) as T0. pose proof (cur_total HM Hx HI1) as T1.
  assert (TT : vsum (tot_of xss) 0 p = grand_total xss).
  { unfold vsum, grand_total. rewrite <- Hx. unfold tot_of. clear. f_equal. induction xss as [|x l IH]; auto. cbn [length seq map nth]. f_equal. rewrite <- seq_shift, map_map. exact IH. }
  assert (R : fst (rd s1) <= p /\ vsum (cur (tot_of xss) s0) 0 (fst (rd s1)) <= snd (rd s1) <= vsum (cur (tot_of xss) s1) 0 (fst (rd s1))).
  { refine (@reader M szT p HM (tot_of xss) s0 during s0 HI0 _ _ _ _ s1 E1); [lia|auto|rewrite R0; cbn; lia|rewrite R0; unfold vsum; cbn; lia]. }
  destruct R as (_ & R).
  rewrite Hr in R. lia.
Qed.

(* the maximum counter holds the largest of 0 and the values offered, in whatever order they take effect *)
Theorem C92_max : forall offered calls, Permutation calls offered ->
  (0 <= max_value calls)%Z /\ (forall v, In v offered -> (v <= max_value calls)%Z) /\ (max_value calls = 0%Z \/ In (max_value calls) offered).
Proof.
  intros offered calls Hp. destruct (max_value_spec calls) as (A & B & D). split; auto. split.
  - intros v Hv. apply B. eapply Permutation_in; [apply Permutation_sym; exact Hp|exact Hv].
  - destruct D as [D|D]; auto. right. eapply Permutation_in; eauto.
Qed.
(* hence not the largest value offered where all are negative *)
Theorem C92_max_negative_refuted : exists offered m, In m offered /\ (forall v, In v offered -> (v <= m)%Z) /\ max_value offered <> m.
Proof. exists [(-5)%Z; (-3)%Z], (-3)%Z. split; [right; now left|]. split; [intros v [<-|[<-|[]]]; lia|]. vm_compute. discriminate. Qed.

(* two workers, 64-byte type; worker 1 loads before worker 0 stores; a reader in between sees 3 *)
Example C92_example : exists e s, initialize 64 2 = Some e /\ fresh 256 64 2 e /\
  cexec 256 64 2 [Some 0; Some 1; Some 0; None; Some 1; Some 0; Some 0; None] (cstart e [[3; 4]; [5]]) = Some s /\ all_done s /\ rd s = (2, 8) /\ get_value 256 64 2 (ent s) = Some 12.
Proof.
  exists [Some 0; None; Some 0; None]. eexists. split; [vm_compute; reflexivity|]. split; [apply fresh_init; vm_compute; reflexivity|]. split; [vm_compute; reflexivity|].
  split; [split; [reflexivity|]|split; vm_compute; reflexivity]. intros w [<-|[<-|[]]]; reflexivity.
Qed.

Print Assumptions C92_fresh.
Print Assumptions C92_sum.
Print Assumptions C92_concurrent_read.
Print Assumptions C92_max.
Print Assumptions C92_max_negative_refuted.
