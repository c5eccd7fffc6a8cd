(* Insertions that all return have put their keys into the table, so their keys fit. *)
From Verif Require Import Base ListUtil HTModel HTSpec HTProofs.

Section Full.
  Variable V : Type.
  Variable hash : nat -> nat.
  Variable e0 : V.
  Variable on_new : V -> V -> V.
  Variable on_old : option (V -> V -> V).
  Variable m : nat.
  Hypothesis Hm : 0 < m.
  Variable calls : list (nat * V).
  Notation key t h := (tkey e0 t h).

  Definition in_table (t : table V) (k : nat) : Prop := exists h, h < m /\ key t h = Some k.
  Definition pc_ok (t : table V) (k : nat) (p : pc) : Prop :=
    match p with
    | Test h | Cas h | Check h => h < m
    | Upd h _ => h < m /\ key t h = Some k
    | Done _ => in_table t k
    end.
  Definition FI (s : st V) : Prop :=
    length (tab s) = m /\ length (pcs s) = length calls /\
    forall i kv p, nth_error calls i = Some kv -> nth_error (pcs s) i = Some p -> pc_ok (tab s) (fst kv) p.

  Lemma pc_ok_mono t t' k p : (forall h x, h < m -> key t h = Some x -> key t' h = Some x) -> pc_ok t k p -> pc_ok t' k p.
  Proof.
    intros H. destruct p; simpl; auto.
    - intros [A B]. split; auto.
    - intros (h & A & B). exists h. auto.
  Qed.
  Lemma FI_start t : length t = m -> FI (start hash t calls).
  Proof.
    intros Ht. split; auto. split; [apply map_length|]. intros i kv p Hi Hp. simpl in Hp.
    rewrite nth_error_map, Hi in Hp. injection Hp as <-. simpl. unfold firstIndex. rewrite Ht. apply Nat.mod_upper_bound. lia.
  Qed.
  Lemma FI_step s i : FI s -> FI (sys_step e0 on_new on_old calls s i).
  Proof.
    intros (Hl & Hp & H). unfold sys_step. destruct (nth_error calls i) as [kv|] eqn:Ei; [|split; auto].
    destruct (nth_error (pcs s) i) as [p|] eqn:Ep; [|split; auto]. pose proof (H i kv p Ei Ep) as Hok.
    assert (X : forall t' p' log, length t' = m -> (forall h x, h < m -> key (tab s) h = Some x -> key t' h = Some x) -> pc_ok t' (fst kv) p' ->
      FI {| tab := t'; pcs := lset (pcs s) i p'; hlog := log |}).
    { intros t' p' log Ht' Hk Hp'. split; auto. split; [simpl; now rewrite length_lset|]. simpl. intros j kv' q Hj Hq.
      destruct (Nat.eq_dec j i) as [->|Hne].
      - rewrite nth_error_lset_same in Hq by (apply nth_error_Some; congruence). injection Hq as <-. congruence.
      - rewrite nth_error_lset_other in Hq by auto. eapply pc_ok_mono; eauto. }
    unfold tstep. destruct p as [h|h|h|h fr|r]; simpl in Hok.
    - apply X; auto. destruct (key (tab s) h); simpl; auto.
    - destruct (key (tab s) h) as [x|] eqn:Ex; [apply X; simpl; auto|]. apply X.
      + unfold set_key. now rewrite length_lset.
      + intros h' x Hh' Hx. rewrite key_set_key by lia. destruct (Nat.eqb_spec h' h); auto. subst. congruence.
      + simpl. split; auto. rewrite key_set_key by lia. now rewrite Nat.eqb_refl.
    - assert (Hinc : incrementIndex (tab s) h < m) by (unfold incrementIndex; rewrite Hl; apply Nat.mod_upper_bound; lia).
      destruct (key (tab s) h) as [x|] eqn:Ex; [|apply X; simpl; auto].
      destruct (Nat.eqb_spec x (fst kv)) as [->|]; [|apply X; simpl; auto].
      apply X; auto. destruct on_old; simpl; auto. exists h. auto.
    - destruct Hok as [H1 H2]. apply X.
      + unfold set_val. now rewrite length_lset.
      + intros h' x Hh' Hx. now rewrite key_set_val.
      + simpl. exists h. split; auto. now rewrite key_set_val.
    - apply X; auto.
  Qed.
  Lemma FI_exec sched s : FI s -> FI (exec e0 on_new on_old calls sched s).
  Proof. revert s. induction sched as [|i sched IH]; intros s H; simpl; auto. apply IH, FI_step, H. Qed.
  Lemma finished_fits t sched : length t = m -> finished (exec e0 on_new on_old calls sched (start hash t calls)) ->
    distinct (map fst calls) <= m.
  Proof.
    intros Ht Hfin. set (s := exec e0 on_new on_old calls sched (start hash t calls)) in *.
    destruct (FI_exec sched (FI_start _ Ht)) as (Hl & Hp & H). fold s in Hl, Hp, H.
    unfold distinct. etransitivity; [|apply (Nat.eq_le_incl _ _ (seq_length m 0))].
    assert (Hall : forall k, In k (map fst calls) -> exists h, h < m /\ key (tab s) h = Some k).
    { intros k Hk. apply in_map_iff in Hk as (kv & <- & Hk). apply In_nth_error in Hk as [i Hi].
      destruct (nth_error (pcs s) i) as [p|] eqn:Ep.
      - destruct (Hfin i p Ep) as [r ->]. exact (H i kv _ Hi Ep).
      - apply nth_error_None in Ep. assert (i < length calls) by (apply nth_error_Some; congruence). lia. }
    assert (Hk : incl (nodup Nat.eq_dec (map fst calls)) (keys_of (tab s))).
    { intros k Hk. apply nodup_In, Hall in Hk as (h & A & B). apply (keys_In e0). exists h. split; auto. lia. }
    etransitivity; [apply (NoDup_incl_length (NoDup_nodup _ _) Hk)|]. rewrite seq_length, <- Hl.
    unfold keys_of. rewrite map_length. unfold entries. clear. induction (tab s) as [|[[k|] v] t2 IH]; simpl; auto; lia.
  Qed.
End Full.
