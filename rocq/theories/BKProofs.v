From Coq Require Import Permutation ZArith Sorted.
From Verif Require Import Base ListUtil GBModel BKModel BKSpec.

Lemma mem_In v l : mem v l = true <-> In v l.
Proof.
  unfold mem. rewrite existsb_exists. split; [intros (x & H & E); apply Nat.eqb_eq in E; now subst|intros H; exists v; split; auto; apply Nat.eqb_refl].
Qed.

(* -- update_buckets_seq ---------------------------------------------------------------- *)
Section Upd.
  Definition dest (vb : nat * option nat) : bool := match snd vb with Some _ => true | None => false end.
  Definition fits (k : nat) (l : list (nat * option nat)) : Prop := forall v b, In (v, Some b) l -> b < k.
  Lemma bucket_push s v b j : b < length (bk s) ->
    bucket (push s (v, Some b)) j = if j =? b then bucket s b ++ [v] else bucket s j.
  Proof.
    intros Hb. unfold bucket, push. simpl. rewrite nth_lset, (Nat.eqb_sym b j). apply Nat.ltb_lt in Hb. rewrite Hb.
    destruct (Nat.eqb_spec j b) as [->|]; reflexivity.
  Qed.
  Lemma sum_lset (l : list (list nat)) b x : b < length l ->
    list_sum (map (@length nat) (lset l b x)) + length (nth b l []) = list_sum (map (@length nat) l) + length x.
  Proof.
    revert b; induction l as [|y l IH]; intros [|b] H; simpl in *; try lia. specialize (IH b ltac:(lia)). lia.
  Qed.
  Lemma update_seq_ok l : forall s, fits (length (bk s)) l ->
    length (bk (update_seq l s)) = length (bk s) /\ cur (update_seq l s) = cur s /\ range (update_seq l s) = range s /\
    nelm (update_seq l s) = nelm s + length (filter dest l) /\
    list_sum (map (@length nat) (bk (update_seq l s))) = list_sum (map (@length nat) (bk s)) + length (filter dest l) /\
    forall j, bucket (update_seq l s) j = bucket s j ++ map fst (filter (goes j) l).
  Proof.
    unfold update_seq. induction l as [|[v [b|]] l IH]; intros s Hf.
    - simpl. repeat split; try lia. intros j. now rewrite app_nil_r.
    - assert (Hb : b < length (bk s)) by (apply (Hf v); now left).
      destruct (IH (push s (v, Some b))) as (H1 & H2 & H3 & H4 & H5 & H6).
      { intros w c Hin. unfold push. simpl. rewrite length_lset. apply (Hf w). now right. }
      cbn [fold_left]. rewrite H1, H2, H3, H4, H5. unfold push at 1 2 3 4 5. cbn [snd fst bk cur range nelm].
      rewrite length_lset. cbn [filter dest snd length]. repeat split; try lia.
      + pose proof (sum_lset (bk s) (bucket s b ++ [v]) Hb) as E. rewrite app_length in E. simpl in E. unfold bucket in E at 2. fold (bucket s b) in E. unfold bucket in *. lia.
      + intros j. rewrite H6, bucket_push by auto. cbn [filter]. unfold goes at 2. cbn [snd]. rewrite (Nat.eqb_sym b j).
        destruct (Nat.eqb_spec j b) as [->|]; auto. cbn [map fst]. now rewrite <- app_assoc.
    - cbn [fold_left filter dest snd]. change (push s (v, None)) with s. destruct (IH s) as (H1 & H2 & H3 & H4 & H5 & H6).
      { intros w c Hin. apply (Hf w). now right. }
      repeat split; auto.
  Qed.
End Upd.

Section Order.
  Variable inc : bool.
  Variable o null t : nat.
  Hypothesis Ho : 0 < o.
  Notation to_range := (to_range inc o).
  Notation cur_num := (cur_num inc o).
  Local Open Scope Z_scope.
  (* the priority of a bucket: the order in which buckets are visited; t is the range the
     structure starts with when the order is decreasing *)
  Definition P (b : nat) : Z := if inc then Z.of_nat b else Z.of_nat t * Z.of_nat o - 1 - Z.of_nat b.
  Definition R (r : nat) : Z := if inc then Z.of_nat r else Z.of_nat t - Z.of_nat r.
  Notation O := (Z.of_nat o).
  Lemma P_inj a b : P a = P b -> a = b.
  Proof. unfold P. destruct inc; lia. Qed.
  Lemma no_later_P a b : no_later inc a b <-> P a <= P b.
  Proof. unfold no_later, P. destruct inc; lia. Qed.
  Lemma earlier_P a b : earlier inc a b <-> P a < P b.
  Proof. unfold earlier, P. destruct inc; lia. Qed.

  Lemma mod_sub b q : (q * o <= b)%nat -> (b < (q + 1) * o)%nat -> (b mod o = b - q * o)%nat.
  Proof. intros H1 H2. symmetry. apply Nat.mod_unique with (q := q); nia. Qed.
  Lemma to_range_P r b : (inc = false -> 1 <= r)%nat ->
    to_range r b = if P b <? R r * O then None
                   else if P b <? (R r + 1) * O then Some (Z.to_nat (P b - R r * O)) else Some o.
  Proof.
    intros Hr. unfold BKModel.to_range, P, R. destruct inc.
    - destruct (Nat.ltb_spec b (r * o)) as [H|H].
      + rewrite (proj2 (Z.ltb_lt _ _)); auto. nia.
      + rewrite (proj2 (Z.ltb_ge _ _)) by nia. destruct (Nat.ltb_spec b ((r + 1) * o)) as [H'|H'].
        * rewrite (proj2 (Z.ltb_lt _ _)) by nia. f_equal. rewrite (mod_sub r) by auto. nia.
        * rewrite (proj2 (Z.ltb_ge _ _)) by nia. reflexivity.
    - specialize (Hr eq_refl). destruct (Nat.leb_spec (r * o) b) as [H|H].
      + rewrite (proj2 (Z.ltb_lt _ _)); auto. nia.
      + rewrite (proj2 (Z.ltb_ge _ _)) by nia. destruct (Nat.leb_spec ((r - 1) * o) b) as [H'|H'].
        * rewrite (proj2 (Z.ltb_lt _ _)) by nia. f_equal. rewrite (mod_sub (r - 1)); [nia|auto|].
          replace (r - 1 + 1)%nat with r by lia. auto.
        * rewrite (proj2 (Z.ltb_ge _ _)) by nia. reflexivity.
  Qed.
  Lemma slot_lt r b j : (inc = false -> 1 <= r)%nat -> (j < o)%nat -> (to_range r b = Some j <-> P b = R r * O + Z.of_nat j).
  Proof.
    intros Hr Hj. rewrite to_range_P by auto. destruct (Z.ltb_spec (P b) (R r * O)).
    - split; [discriminate|]. lia.
    - destruct (Z.ltb_spec (P b) ((R r + 1) * O)).
      + split; [intros E; injection E as E; lia|]. intros E. f_equal. lia.
      + split; [intros E; injection E as E; lia|]. nia.
  Qed.
  Lemma slot_o r b : (inc = false -> 1 <= r)%nat -> (to_range r b = Some o <-> (R r + 1) * O <= P b).
  Proof.
    intros Hr. rewrite to_range_P by auto. destruct (Z.ltb_spec (P b) (R r * O)).
    - split; [discriminate|]. nia.
    - destruct (Z.ltb_spec (P b) ((R r + 1) * O)).
      + split; [intros E; injection E as E; nia|]. lia.
      + split; auto.
  Qed.
  Lemma slot_none r b : (inc = false -> 1 <= r)%nat -> (to_range r b = None <-> P b < R r * O).
  Proof.
    intros Hr. rewrite to_range_P by auto. destruct (Z.ltb_spec (P b) (R r * O)); [tauto|].
    destruct (Z.ltb_spec (P b) ((R r + 1) * O)); split; (discriminate || lia).
  Qed.
  Lemma slot_le r b j : (inc = false -> 1 <= r)%nat -> to_range r b = Some j -> (j <= o)%nat.
  Proof.
    intros Hr. rewrite to_range_P by auto. destruct (Z.ltb_spec (P b) (R r * O)); [discriminate|].
    destruct (Z.ltb_spec (P b) ((R r + 1) * O)); intros E; injection E as E; nia.
  Qed.
  Lemma slot_ge r b j : (inc = false -> 1 <= r)%nat -> to_range r b = Some j -> R r * O + Z.of_nat j <= P b.
  Proof.
    intros Hr E. pose proof (@slot_le r b j Hr E). destruct (Nat.eq_dec j o) as [->|N].
    - apply slot_o in E; auto. nia.
    - apply slot_lt in E; auto; lia.
  Qed.
  Definition pos (s : bst) : Z := R (range s) * O + Z.of_nat (cur s).
  Lemma cur_num_P s : (inc = false -> 1 <= range s)%nat -> (cur s < o)%nat -> P (cur_num s) = pos s.
  Proof. intros Hr Hc. unfold BKModel.cur_num, P, pos, R. destruct inc; [nia|]. specialize (Hr eq_refl). nia. Qed.
End Order.

Section BInv.
  Variable inc : bool.
  Variable o null t : nat.
  Hypothesis Ho : 0 < o.
  Notation to_range := (to_range inc o).
  Notation cur_num := (cur_num inc o).
  Notation P := (P inc o t).
  Notation R := (R inc t).
  Notation pos := (pos inc o t).
  Notation O := (Z.of_nat o).
  Implicit Types (s : bst) (d : nat -> nat) (due : nat -> bool).

  Lemma Pinj a b : P a = P b -> a = b.
  Proof. now apply P_inj. Qed.
  Lemma Slt r b j : (inc = false -> 1 <= r) -> j < o -> (to_range r b = Some j <-> P b = R r * O + Z.of_nat j)%Z.
  Proof. now apply slot_lt. Qed.
  Lemma So r b : (inc = false -> 1 <= r) -> (to_range r b = Some o <-> (R r + 1) * O <= P b)%Z.
  Proof. now apply slot_o. Qed.
  Lemma Snone r b : (inc = false -> 1 <= r) -> (to_range r b = None <-> P b < R r * O)%Z.
  Proof. now apply slot_none. Qed.
  Lemma Sle r b j : (inc = false -> 1 <= r) -> to_range r b = Some j -> j <= o.
  Proof. now apply slot_le. Qed.
  Lemma Sge r b j : (inc = false -> 1 <= r) -> to_range r b = Some j -> (R r * O + Z.of_nat j <= P b)%Z.
  Proof. now apply slot_ge. Qed.
  Lemma CnP s : (inc = false -> 1 <= range s) -> cur s < o -> P (cur_num s) = pos s.
  Proof. now apply cur_num_P. Qed.
  Lemma NlP a b : no_later inc a b <-> (P a <= P b)%Z.
  Proof. now apply no_later_P. Qed.
  Lemma ElP a b : earlier inc a b <-> (P a < P b)%Z.
  Proof. now apply earlier_P. Qed.

  Record BInv s d due : Prop := {
    J_len : length (bk s) = o + 1;
    J_cur : cur s < o;
    J_sum : nelm s = list_sum (map (@length nat) (bk s));
    J_past : forall j, j < cur s -> bucket s j = [];
    J_le : forall v, d v <= null;
    J_real : forall j v, In v (bucket s j) -> d v < null;
    J_due : forall v, due v = true -> d v < null /\ (pos s <= P (d v))%Z /\ exists j, to_range (range s) (d v) = Some j /\ In v (bucket s j);
    J_not : forall v, due v = false -> d v < null -> (P (d v) <= pos s)%Z /\ (P (d v) = pos s -> ~ In v (bucket s (cur s)));
    J_rng : inc = false -> 1 <= range s /\ (bucket s o <> [] -> 2 <= range s)
  }.
  Lemma J_r s d due : BInv s d due -> inc = false -> 1 <= range s.
  Proof. intros H Hi. now apply (J_rng H). Qed.

  Lemma bucket_le_nelm s d due j : BInv s d due -> length (bucket s j) <= nelm s.
  Proof.
    intros H. rewrite (J_sum H). unfold bucket. clear. revert j; induction (bk s) as [|x l IH]; intros [|j]; simpl; try lia. specialize (IH j). lia.
  Qed.
  Lemma nelm_0 s d due : BInv s d due -> nelm s = 0 -> forall j, bucket s j = [].
  Proof. intros H E j. pose proof (bucket_le_nelm j H) as Hl. rewrite E in Hl. destruct (bucket s j); simpl in *; auto; lia. Qed.
  Lemma nelm_pos s d due : BInv s d due -> 0 < nelm s -> exists j, j <= o /\ bucket s j <> [].
  Proof.
    intros H Hp. assert (G : forall l : list (list nat), 0 < list_sum (map (@length nat) l) -> exists j, j < length l /\ nth j l [] <> []).
    { induction l as [|x l IH]; simpl; [lia|]. intros Hq. destruct x as [|y x].
      - destruct IH as (j & Hj & E); auto. exists (S j). split; [lia|auto].
      - exists 0. split; [lia|discriminate]. }
    rewrite (J_sum H) in Hp. destruct (G _ Hp) as (j & Hj & E). rewrite (J_len H) in Hj. exists j. split; [lia|exact E].
  Qed.

  (* -- the guard-fails case: extraction ------------------------------------------------ *)
  Definition extracted s : bst :=
    {| bk := lset (bk s) (cur s) []; cur := cur s; range := range s; nelm := nelm s - length (bucket s (cur s)) |}.
  Lemma bucket_extracted s d due j : BInv s d due -> bucket (extracted s) j = if j =? cur s then [] else bucket s j.
  Proof.
    intros H. unfold extracted, bucket. simpl. rewrite nth_lset, (Nat.eqb_sym (cur s)).
    assert (cur s < length (bk s)) as Hl by (rewrite (J_len H); pose proof (J_cur H); lia).
    apply Nat.ltb_lt in Hl. rewrite Hl. destruct (j =? cur s); reflexivity.
  Qed.
  Lemma due_here s d due v : BInv s d due -> (In v (filter (fun i => d i =? cur_num s) (bucket s (cur s))) <-> due v = true /\ d v = cur_num s).
  Proof.
    intros H. rewrite filter_In, Nat.eqb_eq. pose proof (@CnP s (J_r H) (J_cur H)) as Ep. split.
    - intros [Hin E]. split; auto. destruct (due v) eqn:Ed; auto. exfalso.
      destruct (J_not H _ Ed (J_real H _ _ Hin)) as [_ Hn]. apply Hn; auto. now rewrite E.
    - intros [Ed E]. split; auto. destruct (J_due H _ Ed) as (_ & _ & j & Ej & Hin).
      assert (j = cur s) as ->; auto. rewrite E in Ej.
      assert (Ec : to_range (range s) (cur_num s) = Some (cur s)) by (apply Slt; [exact (J_r H)|exact (J_cur H)|exact Ep]).
      congruence.
  Qed.
  Lemma extract_inv s d due : BInv s d due ->
    BInv (extracted s) d (fun v => due v && negb (mem v (filter (fun i => d i =? cur_num s) (bucket s (cur s))))).
  Proof.
    intros H. assert (Hl : cur s < length (bk s)) by (rewrite (J_len H); pose proof (J_cur H); lia).
    pose proof (fun j => bucket_extracted j H) as HB.
    assert (Hsub : forall j v, In v (bucket (extracted s) j) -> In v (bucket s j)).
    { intros j v. rewrite HB. destruct (Nat.eqb_spec j (cur s)); auto. intros []. }
    pose proof (@CnP s (J_r H) (J_cur H)) as Ep.
    constructor.
    - simpl. rewrite length_lset. apply H.
    - apply H.
    - simpl. pose proof (sum_lset (bk s) [] Hl) as E. simpl in E. rewrite (J_sum H). unfold bucket. lia.
    - simpl. intros j Hj. rewrite HB. destruct (Nat.eqb_spec j (cur s)); [lia|]. now apply (J_past H).
    - apply H.
    - intros j v Hin. eapply (J_real H); eauto.
    - intros v Hv. apply andb_prop in Hv as [Hd Hm]. destruct (J_due H _ Hd) as (H1 & H2 & j & H3 & H4). split; auto. split; auto.
      exists j. split; auto. rewrite HB. destruct (Nat.eqb_spec j (cur s)) as [->|]; auto. exfalso.
      apply Bool.negb_true_iff in Hm. assert (Hc : mem v (filter (fun i => d i =? cur_num s) (bucket s (cur s))) = true); [|congruence].
      apply mem_In, (due_here v H). split; auto. apply Pinj. rewrite Ep. 
      apply Slt in H3; [exact H3|exact (J_r H)|exact (J_cur H)].
    - intros v Hv Hr. simpl. rewrite HB, Nat.eqb_refl. split; [|intros _ []].
      apply Bool.andb_false_iff in Hv as [Hv|Hv]; [exact (proj1 (J_not H _ Hv Hr))|].
      apply Bool.negb_false_iff, mem_In, (due_here v H) in Hv as [_ E]. rewrite E, Ep. apply Z.le_refl.
    - intros Hi. destruct (J_rng H Hi) as [H1 H2]. split; auto. intros Hne. apply H2. rewrite HB in Hne.
      destruct (Nat.eqb_spec o (cur s)); auto; congruence.
  Qed.

  (* -- moving on ------------------------------------------------------------------------- *)
  Lemma advance_within s d due : BInv s d due -> bucket s (cur s) = [] -> cur s + 1 < o ->
    BInv {| bk := bk s; cur := cur s + 1; range := range s; nelm := nelm s |} d due.
  Proof.
    intros H He Hc. constructor; try apply H; auto.
    - simpl. intros j Hj. destruct (Nat.eq_dec j (cur s)) as [->|]; auto. apply (J_past H). lia.
    - intros v Hv. destruct (J_due H _ Hv) as (H1 & H2 & j & H3 & H4). split; auto. split; [|exists j; auto].
      unfold BKProofs.pos in *. simpl. 
      assert (P (d v) <> R (range s) * O + Z.of_nat (cur s))%Z; [|lia]. intros E.
      apply Slt in E; [|exact (J_r H)|exact (J_cur H)]. assert (j = cur s) as -> by congruence. rewrite He in H4. destruct H4.
    - intros v Hv Hr. destruct (J_not H _ Hv Hr) as [H1 _]. unfold BKProofs.pos in *. simpl. split; [lia|]. intros E. lia.
  Qed.

  Definition refill d s r1 : list (nat * option nat) := map (fun v => (v, to_range r1 (d v))) (bucket s o).
  Lemma filter_refill d s r1 j : map fst (filter (goes j) (refill d s r1)) = filter (fun v => match to_range r1 (d v) with Some b => b =? j | None => false end) (bucket s o).
  Proof.
    unfold refill. induction (bucket s o) as [|v l IH]; simpl; auto. unfold goes at 1. simpl.
    destruct (to_range r1 (d v)) as [b|]; auto. destruct (b =? j); simpl; congruence.
  Qed.
  Lemma fold_min_spec x l : exists y, In y (x :: l) /\ fold_right Nat.min x l = y /\ forall z, In z (x :: l) -> y <= z.
  Proof.
    induction l as [|a l (y & H1 & H2 & H3)]; simpl.
    - exists x. split; [now left|]. split; auto. intros z [<-|[]]. lia.
    - rewrite H2. destruct (Nat.min_spec a y) as [[Hlt ->]|[Hge ->]].
      + exists a. split; auto. split; auto. intros z [<-|[<-|Hz]]; auto; [specialize (H3 x (or_introl eq_refl)); lia|specialize (H3 z (or_intror Hz)); lia].
      + exists y. split; [destruct H1; auto|]. split; auto. intros z [<-|[<-|Hz]]; auto; [apply H3; now left|apply H3; now right].
  Qed.
  Lemma fold_max_spec l : l <> [] -> exists y, In y l /\ fold_right Nat.max 0 l = y /\ forall z, In z l -> z <= y.
  Proof.
    induction l as [|a l IH]; intros Hn; [congruence|]. destruct l as [|b l].
    - exists a. simpl. split; auto. split; [lia|]. intros z [<-|[]]. lia.
    - destruct IH as (y & H1 & H2 & H3); [discriminate|]. cbn [fold_right] in *. rewrite H2.
      destruct (Nat.max_spec a y) as [[Hlt ->]|[Hge ->]].
      + exists y. split; [now right|]. split; auto. intros z [<-|Hz]; [lia|auto].
      + exists a. split; [now left|]. split; auto. intros z [<-|Hz]; [lia|]. specialize (H3 z Hz). lia.
  Qed.

  Lemma sum_last k : forall l : list (list nat), length l = k + 1 -> (forall j, j < k -> nth j l [] = []) -> list_sum (map (@length nat) l) = length (nth k l []).
  Proof.
    induction k as [|k IH]; intros [|x l] Hl He; simpl in *; try lia.
    - destruct l; simpl in *; lia.
    - pose proof (He 0 ltac:(lia)) as E. simpl in E. subst x. simpl. apply IH; [lia|]. intros j Hj. apply (He (S j)). lia.
  Qed.
  Lemma R_step r : (inc = false -> 1 <= r) -> R (if inc then r + 1 else r - 1) = (R r + 1)%Z.
  Proof. unfold BKProofs.R. destruct inc; intros H; [lia|specialize (H eq_refl); lia]. Qed.

  Lemma unpack_ok s d due : BInv s d due -> bucket s (cur s) = [] -> cur s + 1 = o -> 0 < nelm s ->
    exists s', advance inc o d s = Some s' /\ BInv s' d due /\ nelm s' <= nelm s /\ cur s' = 0 /\
      (forall j v, In v (bucket s' j) -> to_range (range s') (d v) = Some j /\ In v (bucket s o)) /\
      (NoDup (bucket s o) -> forall j, NoDup (bucket s' j)) /\
      (nelm s' = 0 \/ (exists j, j < o /\ bucket s' j <> []) \/
       ((forall j, j < o -> bucket s' j = []) /\
        exists v, In v (bucket s' o) /\ ((R (range s') + 1) * O <= P (d v) < (R (range s') + 2) * O)%Z)) /\
      ((exists v, In v (bucket s o) /\ ((R (range s) + 1) * O <= P (d v) < (R (range s) + 2) * O)%Z) ->
       exists j, j < o /\ bucket s' j <> []).
  Proof.
    intros H He Hc Hn. pose proof (J_len H) as HL. pose proof (J_r H) as Hr.
    assert (Hopen : forall j, j < o -> bucket s j = []).
    { intros j Hj. destruct (Nat.eq_dec j (cur s)) as [->|]; auto. apply (J_past H). lia. }
    assert (Hm : length (bucket s o) = nelm s).
    { rewrite (J_sum H). symmetry. apply sum_last; auto. }
    assert (Hne : bucket s o <> []) by (intros E; rewrite E in Hm; simpl in Hm; lia).
    set (r1 := if inc then range s + 1 else range s - 1).
    assert (Hr1 : inc = false -> 1 <= r1).
    { intros Hi. unfold r1. rewrite Hi. destruct (J_rng H Hi) as [_ H2]. specialize (H2 Hne). lia. }
    assert (HR1 : R r1 = (R (range s) + 1)%Z) by (apply R_step; auto).
    unfold advance. rewrite (proj2 (Nat.eqb_eq _ _) Hc). unfold unpack. cbn [bk nelm cur range].
    change (bucket {| bk := bk s; cur := o; range := range s; nelm := nelm s |} o) with (bucket s o).
    rewrite (proj2 (Nat.eqb_eq _ _) Hm). fold r1. fold (refill d s r1).
    set (s1 := {| bk := lset (bk s) o []; cur := o; range := r1; nelm := nelm s |}).
    destruct (@update_seq_ok (refill d s r1) s1) as (U1 & U2 & U3 & U4 & U5 & U6).
    { simpl. rewrite length_lset, HL. intros v b Hin. apply in_map_iff in Hin as (w & E & _). injection E as -> E. apply Sle in E; auto. lia. }
    set (s2 := update_seq (refill d s r1) s1) in *.
    assert (U4' : nelm s2 = nelm s + length (filter dest (refill d s r1))) by exact U4.
    assert (Hs1 : forall j, bucket s1 j = []).
    { intros j. unfold bucket, s1. simpl. rewrite nth_lset. destruct (Nat.eqb_spec o j) as [<-|N].
      - rewrite HL. replace (o <? o + 1) with true by (symmetry; apply Nat.ltb_lt; lia). reflexivity.
      - simpl. destruct (Nat.lt_ge_cases j o) as [Hj|Hj]; [now apply Hopen|]. apply nth_overflow. lia. }
    assert (HB : forall j, bucket s2 j = filter (fun v => match to_range r1 (d v) with Some b => b =? j | None => false end) (bucket s o)).
    { intros j. rewrite U6, Hs1, filter_refill. reflexivity. }
    assert (HIn : forall j v, In v (bucket s2 j) <-> In v (bucket s o) /\ to_range r1 (d v) = Some j).
    { intros j v. rewrite HB, filter_In. destruct (to_range r1 (d v)) as [b|]; [rewrite Nat.eqb_eq|]; split; intros [? E]; split; auto; congruence. }
    assert (Hsum : list_sum (map (@length nat) (bk s2)) = length (filter dest (refill d s r1))).
    { rewrite U5. unfold s1. cbn [bk]. assert (Hlt : o < length (bk s)) by lia. pose proof (sum_lset (bk s) [] Hlt) as E. simpl in E.
      change (nth o (bk s) []) with (bucket s o) in E. rewrite <- (J_sum H), Hm in E. lia. }
    assert (Hcnt : length (filter dest (refill d s r1)) <= nelm s).
    { rewrite <- Hm. unfold refill. etransitivity; [apply filter_len_le|]. now rewrite map_length. }
    set (over := bucket s2 o) in *.
    assert (Hdiff : nelm s2 - nelm s = length (filter dest (refill d s r1))) by (rewrite U4; unfold s1; cbn [nelm]; lia).
    rewrite Hdiff. clear Hdiff.
    (* no open bucket got anything iff the count equals the overflow *)
    assert (Hnone : length (filter dest (refill d s r1)) - length over = 0 -> forall j, j < o -> bucket s2 j = []).
    { intros Hz j Hj. assert (Hlt : o < length (bk s2)) by (rewrite U1; simpl; rewrite length_lset; lia).
      pose proof (sum_lset (bk s2) [] Hlt) as E. simpl in E. change (nth o (bk s2) []) with over in E. rewrite Hsum in E.
      assert (E0 : list_sum (map (@length nat) (lset (bk s2) o [])) = 0) by lia.
      assert (G : forall l : list (list nat), list_sum (map (@length nat) l) = 0 -> forall i, nth i l [] = []).
      { induction l as [|x l IH]; intros Hl [|i]; simpl in *; auto; [destruct x; simpl in *; auto; lia|]. apply IH. lia. }
      specialize (G _ E0 j). rewrite nth_lset_other in G by lia. exact G. }
    assert (Hdue1 : forall v, due v = true -> d v < null /\ (R r1 * O <= P (d v))%Z /\ exists j, to_range r1 (d v) = Some j /\ In v (bucket s2 j)).
    { intros v Hv. destruct (J_due H _ Hv) as (H1 & H2 & j & H3 & H4). split; auto.
      assert (j = o) as ->.
      { destruct (Nat.eq_dec j o) as [|N]; auto. exfalso. pose proof (@Sle _ _ _ Hr H3). rewrite (Hopen j) in H4 by lia. destruct H4. }
      apply So in H3; auto. rewrite HR1. split; auto.
      destruct (to_range r1 (d v)) as [j|] eqn:Ej; [|apply Snone in Ej; auto; lia]. exists j. split; auto. apply HIn. auto. }
    assert (Hnot1 : forall v, due v = false -> d v < null -> (P (d v) < R r1 * O)%Z).
    { intros v Hv Hd. destruct (J_not H _ Hv Hd) as [H1 _]. unfold BKProofs.pos in H1. rewrite HR1. lia. }
    assert (Hlen2 : length (bk s2) = o + 1) by (rewrite U1; simpl; rewrite length_lset; lia).
    assert (Hreal2 : forall j v, In v (bucket s2 j) -> d v < null).
    { intros j v Hin. apply HIn in Hin as [Hin _]. eapply (J_real H); eauto. }
    destruct (((length (filter dest (refill d s r1)) - length over =? 0) && (0 <? length over))%bool) eqn:Ecase.
    - (* none in range *)
      apply andb_prop in Ecase as [E1 E2]. apply Nat.eqb_eq in E1. apply Nat.ltb_lt in E2.
      specialize (Hnone E1). set (r2 := if inc then _ else _).
      assert (Hov : over <> []) by (intros E; rewrite E in E2; simpl in E2; lia).
      assert (Hmin : exists v, In v over /\ (forall w, In w over -> (P (d v) <= P (d w))%Z) /\ (inc = false -> 2 <= r2) /\
                (R r1 <= R r2)%Z /\ ((R r2 + 1) * O <= P (d v) < (R r2 + 2) * O)%Z).
      { assert (Hge : forall w, In w over -> ((R r1 + 1) * O <= P (d w))%Z).
        { intros w Hw. apply HIn in Hw as [_ Hw]. apply So in Hw; auto. }
        unfold r2, BKProofs.P, BKProofs.R in *. destruct inc.
        - destruct over as [|x over'] eqn:Eo; [congruence|]. cbn [hd].
          destruct (fold_min_spec (d x) (map d (x :: over'))) as (y & Y1 & Y2 & Y3). rewrite Y2.
          assert (Hy : exists v, In v (x :: over') /\ d v = y).
          { destruct Y1 as [<-|Y1]; [exists x; simpl; auto|]. apply in_map_iff in Y1 as (v & E & Hv). eauto. }
          destruct Hy as (v & Hv & <-). exists v. split; auto. split.
          { intros w Hw. apply inj_le. apply Y3. right. now apply in_map. }
          split; [discriminate|]. specialize (Hge v Hv).
          pose proof (Nat.div_mod (d v) o ltac:(lia)) as Dm. pose proof (Nat.mod_upper_bound (d v) o ltac:(lia)).
          assert (r1 + 1 <= d v / o) by (apply Nat.div_le_lower_bound; nia). split; [lia|]. nia.
        - destruct (@fold_max_spec (map d over)) as (y & Y1 & Y2 & Y3); [destruct over; [congruence|discriminate]|]. rewrite Y2.
          apply in_map_iff in Y1 as (v & <- & Hv). exists v. split; auto. split.
          { intros w Hw. assert (d w <= d v) by (apply Y3; now apply in_map). lia. }
          specialize (Hge v Hv). specialize (Hr1 eq_refl).
          replace ((o + d v) / o) with (d v / o + 1) by (replace (o + d v) with (d v + 1 * o) by lia; now rewrite Nat.div_add by lia).
          pose proof (Nat.div_mod (d v) o ltac:(lia)) as Dm. pose proof (Nat.mod_upper_bound (d v) o ltac:(lia)).
          split; [lia|]. split; [|nia].
          assert (d v / o < r1 - 1); [|lia]. apply Nat.div_lt_upper_bound; nia. }
      destruct Hmin as (v0 & Hv0 & Hmin & Hr2 & HR2 & Hhit).
      eexists. split; [reflexivity|].
      assert (Hslot2 : forall w, In w over -> to_range r2 (d w) = Some o).
      { intros w Hw. apply So; [intros Hi; specialize (Hr2 Hi); lia|]. specialize (Hmin w Hw). lia. }
      assert (Hin_o : forall j v, In v (bucket s2 j) -> j = o).
      { intros j v Hin. destruct (Nat.eq_dec j o) as [|N]; auto. exfalso. pose proof Hin as Hin'. apply HIn in Hin' as [_ Hs]. apply Sle in Hs; auto.
        rewrite Hnone in Hin by lia. destruct Hin. }
      split.
      { constructor; cbn [bk cur range nelm]; unfold BKProofs.pos; cbn [bk cur range nelm].
        - exact Hlen2.
        - exact Ho.
        - rewrite Hsum. lia.
        - lia.
        - apply (J_le H).
        - intros j v Hin. eapply Hreal2; eauto.
        - intros v Hv. destruct (Hdue1 v Hv) as (D1 & D2 & j & D3 & D4). split; auto.
          assert (j = o) as -> by (eapply Hin_o; eauto). specialize (Hmin v D4). split; [lia|].
          exists o. split; auto.
        - intros v Hv Hd. specialize (Hnot1 v Hv Hd). split; [nia|]. intros E. exfalso. nia.
        - intros Hi. specialize (Hr2 Hi). split; [lia|auto]. }
      cbn [bk cur range nelm]. split; [lia|]. split; [reflexivity|]. split.
      { intros j v Hin. change (In v (bucket s2 j)) in Hin. assert (j = o) as -> by (eapply Hin_o; eauto). split; [auto|]. now apply HIn in Hin as [? _]. }
      split.
      { intros ND j. change (NoDup (bucket s2 j)). rewrite HB. now apply NoDup_filter'. }
      split.
      { right. right. split; [exact Hnone|]. exists v0. split; auto. }
      intros (v & Hv & Hh). exfalso. rewrite <- HR1 in Hh.
      assert (Es : to_range r1 (d v) = Some (Z.to_nat (P (d v) - R r1 * O))).
      { apply Slt; auto; [nia|]. nia. }
      assert (Hb : In v (bucket s2 (Z.to_nat (P (d v) - R r1 * O)))) by (apply HIn; auto).
      apply Hin_o in Hb. nia.
    - eexists. split; [reflexivity|].
      assert (Hov2 : inc = false -> over <> [] -> 2 <= r1).
      { intros Hi Hov. destruct over as [|v over'] eqn:Eo; [congruence|].
        assert (Hin : In v (bucket s2 o)) by (fold over; rewrite Eo; now left). apply HIn in Hin as [_ Hs]. apply So in Hs; auto.
        specialize (Hr1 Hi). unfold BKProofs.P, BKProofs.R in Hs. rewrite Hi in Hs. nia. }
      split.
      { constructor; cbn [bk cur range nelm]; unfold BKProofs.pos; cbn [bk cur range nelm].
        - exact Hlen2.
        - exact Ho.
        - rewrite Hsum. lia.
        - lia.
        - apply (J_le H).
        - intros j v Hin. eapply Hreal2; eauto.
        - intros v Hv. destruct (Hdue1 v Hv) as (D1 & D2 & D3). split; auto. split; auto. lia.
        - intros v Hv Hd. specialize (Hnot1 v Hv Hd). split; [lia|]. intros E. exfalso. lia.
        - intros Hi. specialize (Hr1 Hi). split; auto. }
      cbn [bk cur range nelm]. split; [lia|]. split; [reflexivity|]. split.
      { intros j v Hin. change (In v (bucket s2 j)) in Hin. apply HIn in Hin. tauto. }
      split.
      { intros ND j. change (NoDup (bucket s2 j)). rewrite HB. now apply NoDup_filter'. }
      split.
      { destruct (Nat.eq_dec (nelm s2 - length (bucket s o)) 0) as [|Hnz]; [now left|]. right. left.
        destruct (existsb (fun j => negb (length (bucket s2 j) =? 0)) (seq 0 o)) eqn:Eex.
        - apply existsb_exists in Eex as (j & Hj & E). apply in_seq in Hj. exists j. split; [lia|].
          intros E'. change (bucket s2 j = []) in E'. rewrite E' in E. discriminate.
        - exfalso. assert (Hemp : forall j, j < o -> bucket s2 j = []).
          { intros j Hj. destruct (bucket s2 j) as [|v l] eqn:Eb; auto. exfalso.
            assert (Hx : existsb (fun j => negb (length (bucket s2 j) =? 0)) (seq 0 o) = true); [|congruence].
            apply existsb_exists. exists j. split; [apply in_seq; lia|]. rewrite Eb. reflexivity. }
          pose proof (@sum_last o (bk s2) Hlen2 Hemp) as Es. rewrite Hsum in Es. change (nth o (bk s2) []) with over in Es.
          apply Bool.andb_false_iff in Ecase as [E|E]; [apply Nat.eqb_neq in E; lia|]. apply Nat.ltb_ge in E. lia. }
      intros (v & Hv & Hh). rewrite <- HR1 in Hh.
      assert (Es : to_range r1 (d v) = Some (Z.to_nat (P (d v) - R r1 * O))).
      { apply Slt; auto; [nia|]. nia. }
      exists (Z.to_nat (P (d v) - R r1 * O)). split; [nia|]. intros E. change (bucket s2 (Z.to_nat (P (d v) - R r1 * O)) = []) in E.
      assert (Hb : In v (bucket s2 (Z.to_nat (P (d v) - R r1 * O)))) by (apply HIn; auto). rewrite E in Hb. destruct Hb.
  Qed.

  Lemma BInv_ext s d due due' : (forall v, due' v = due v) -> BInv s d due -> BInv s d due'.
  Proof.
    intros E H. constructor; try apply H.
    - intros v Hv. rewrite E in Hv. now apply (J_due H).
    - intros v Hv. rewrite E in Hv. now apply (J_not H).
  Qed.
  Lemma extract_none s d due : BInv s d due -> filter (fun i => d i =? cur_num s) (bucket s (cur s)) = [] -> BInv (extracted s) d due.
  Proof.
    intros H E. pose proof (extract_inv H) as H'. rewrite E in H'. eapply BInv_ext; [|exact H']. intros v. simpl. now rewrite Bool.andb_true_r.
  Qed.

  Section Next.
    Variable d : nat -> nat.
    Variable due : nat -> bool.
    (* a further property of the structure that moving on and dropping stale entries preserve *)
    Variable Q : bst -> Prop.
    Hypothesis Q_within : forall s, BInv s d due -> Q s -> bucket s (cur s) = [] -> cur s + 1 < o ->
      Q {| bk := bk s; cur := cur s + 1; range := range s; nelm := nelm s |}.
    Hypothesis Q_unpack : forall s s', BInv s d due -> Q s -> advance inc o d s = Some s' ->
      (forall j v, In v (bucket s' j) -> to_range (range s') (d v) = Some j /\ In v (bucket s o)) ->
      (NoDup (bucket s o) -> forall j, NoDup (bucket s' j)) -> BInv s' d due -> Q s'.
    Hypothesis Q_extract : forall s, BInv s d due -> Q s -> filter (fun i => d i =? cur_num s) (bucket s (cur s)) = [] -> Q (extracted s).

    Lemma guard_case s : BInv s d due ->
      ((length (bucket s (cur s)) =? 0) && (0 <? nelm s))%bool = true ->
      bucket s (cur s) = [] /\ 0 < nelm s /\
      exists s', advance inc o d s = Some s' /\ BInv s' d due /\ (Q s -> Q s') /\ nelm s' <= nelm s.
    Proof.
      intros H G. apply andb_prop in G as [G1 G2]. apply Nat.eqb_eq in G1. apply Nat.ltb_lt in G2.
      assert (He : bucket s (cur s) = []) by (destruct (bucket s (cur s)); simpl in *; auto; lia). split; auto. split; auto.
      pose proof (J_cur H) as Hc. destruct (Nat.eq_dec (cur s + 1) o) as [Ec|Nc].
      - destruct (unpack_ok H He Ec G2) as (s' & A1 & A2 & A3 & A4 & A5 & A6 & _). exists s'. split; auto. split; auto. split; auto.
        intros HQ. apply (Q_unpack H HQ A1 A5 A6 A2).
      - exists {| bk := bk s; cur := cur s + 1; range := range s; nelm := nelm s |}. unfold advance.
        rewrite (proj2 (Nat.eqb_neq _ _) Nc). split; auto. split; [apply advance_within; auto; lia|]. split; auto. intros HQ. apply Q_within; auto; lia.
    Qed.

    Lemma next_reach fuel : forall s r s', BInv s d due -> Q s -> next_bucket inc o fuel d s = Ret r s' ->
      exists s0, BInv s0 d due /\ Q s0 /\
        match r with
        | None => nelm s0 = 0 /\ s' = s0
        | Some (b, L) => b = cur_num s0 /\ L = filter (fun i => d i =? cur_num s0) (bucket s0 (cur s0)) /\ L <> [] /\ s' = extracted s0
        end.
    Proof.
      induction fuel as [|fuel IH]; intros s r s' H HQ E; cbn [next_bucket] in E; [discriminate|].
      destruct (((length (bucket s (cur s)) =? 0) && (0 <? nelm s))%bool) eqn:G.
      - destruct (guard_case H G) as (_ & _ & s1 & A1 & A2 & A3 & _). rewrite A1 in E. eapply IH; eauto.
      - destruct (Nat.eqb_spec (nelm s) 0) as [Hz|Hz].
        + injection E as <- <-. exists s. auto.
        + fold (extracted s) in E. destruct (filter (fun i => d i =? cur_num s) (bucket s (cur s))) as [|x l] eqn:Ef.
          * eapply IH; [| |exact E]; [now apply extract_none|now apply Q_extract].
          * injection E as <- <-. exists s. split; auto. split; auto. split; auto. split; auto. split; auto. discriminate.
    Qed.

    Lemma next_mono fuel : forall fuel' s r s', fuel <= fuel' -> next_bucket inc o fuel d s = Ret r s' -> next_bucket inc o fuel' d s = Ret r s'.
    Proof.
      induction fuel as [|fuel IH]; intros [|fuel'] s r s' Hle E; cbn [next_bucket] in *; try discriminate; try lia.
      destruct (((length (bucket s (cur s)) =? 0) && (0 <? nelm s))%bool).
      - destruct (advance inc o d s); [|discriminate]. apply IH; auto. lia.
      - destruct (nelm s =? 0); auto. destruct (filter (fun i => d i =? cur_num s) (bucket s (cur s))); auto. apply IH; auto. lia.
    Qed.
  End Next.

  (* -- termination --------------------------------------------------------------------- *)
  Section Ends.
    Variable d : nat -> nat.
    Variable due : nat -> bool.
    Definition ends s : Prop := exists fuel r s', next_bucket inc o fuel d s = Ret r s'.
    Lemma ends_0 s : nelm s = 0 -> ends s.
    Proof. intros E. exists 1, None, s. cbn [next_bucket]. rewrite E. simpl. rewrite Bool.andb_false_r. reflexivity. Qed.
    Lemma ends_step s s' : bucket s (cur s) = [] -> 0 < nelm s -> advance inc o d s = Some s' -> ends s' -> ends s.
    Proof.
      intros He Hn Ha (fuel & r & s2 & E). exists (S fuel), r, s2. cbn [next_bucket]. rewrite He, Ha. simpl.
      apply Nat.ltb_lt in Hn. rewrite Hn. exact E.
    Qed.
    Lemma ends_extract N s : BInv s d due -> nelm s <= N -> (forall s', BInv s' d due -> nelm s' < N -> ends s') ->
      bucket s (cur s) <> [] -> ends s.
    Proof.
      intros H HN IH Hne. assert (Hl : 0 < length (bucket s (cur s))) by (destruct (bucket s (cur s)); simpl; [congruence|lia]).
      pose proof (bucket_le_nelm (cur s) H) as Hle.
      destruct (filter (fun i => d i =? cur_num s) (bucket s (cur s))) as [|x l] eqn:Ef.
      - destruct (IH (extracted s)) as (fuel & r & s' & E); [now apply extract_none|simpl; lia|].
        exists (S fuel), r, s'. cbn [next_bucket]. rewrite (proj2 (Nat.eqb_neq (length (bucket s (cur s))) 0)) by lia.
        rewrite (proj2 (Nat.eqb_neq (nelm s) 0)) by lia. cbn [andb]. rewrite Ef. exact E.
      - exists 1. eexists. eexists. cbn [next_bucket]. rewrite (proj2 (Nat.eqb_neq (length (bucket s (cur s))) 0)) by lia.
        rewrite (proj2 (Nat.eqb_neq (nelm s) 0)) by lia. cbn [andb]. rewrite Ef. reflexivity.
    Qed.
    Definition ahead s : Prop := exists j, cur s <= j < o /\ bucket s j <> [].
    Lemma ends_ahead N : (forall s', BInv s' d due -> nelm s' < N -> ends s') ->
      forall k s, BInv s d due -> nelm s <= N -> o - cur s <= k -> ahead s -> ends s.
    Proof.
      intros IH. induction k as [|k IHk]; intros s H HN Hk (j & Hj & Hb); [lia|].
      destruct (bucket s (cur s)) as [|x l] eqn:Eb; [|eapply ends_extract; eauto; congruence].
      assert (Hn : 0 < nelm s) by (pose proof (bucket_le_nelm j H); destruct (bucket s j); simpl in *; [congruence|lia]).
      assert (j <> cur s) by congruence.
      apply ends_step with (s' := {| bk := bk s; cur := cur s + 1; range := range s; nelm := nelm s |}); auto.
      - unfold advance. rewrite (proj2 (Nat.eqb_neq _ _)); auto. lia.
      - apply IHk; [apply advance_within; auto; lia|auto|simpl; lia|]. exists j. split; [simpl; lia|exact Hb].
    Qed.
    (* walk to the end of the open buckets, which are all empty *)
    Lemma ends_walk (Z : bst -> Prop) : (forall s, BInv s d due -> Z s -> cur s + 1 = o -> bucket s (cur s) = [] -> 0 < nelm s -> ends s) ->
      (forall s, Z s -> Z {| bk := bk s; cur := cur s + 1; range := range s; nelm := nelm s |}) ->
      forall k s, BInv s d due -> Z s -> o - cur s <= k -> (forall j, cur s <= j < o -> bucket s j = []) -> 0 < nelm s -> ends s.
    Proof.
      intros Hend HZ. induction k as [|k IHk]; intros s H Hz Hk He Hn; pose proof (J_cur H) as Hc; [lia|].
      assert (Eb : bucket s (cur s) = []) by (apply He; lia).
      destruct (Nat.eq_dec (cur s + 1) o) as [Ec|Nc]; [auto|].
      apply ends_step with (s' := {| bk := bk s; cur := cur s + 1; range := range s; nelm := nelm s |}); auto.
      - unfold advance. now rewrite (proj2 (Nat.eqb_neq _ _) Nc).
      - apply IHk; [apply advance_within; auto; lia|auto|simpl; lia| |auto]. simpl. intros j Hj. apply He. lia.
    Qed.
    Lemma ends_all N : forall s, BInv s d due -> nelm s < N -> ends s.
    Proof.
      induction N as [|N IH]; intros s H HN; [lia|].
      assert (Hahead : forall s, BInv s d due -> nelm s <= N -> ahead s -> ends s).
      { intros s0 H0 H1 H2. eapply ends_ahead; [|exact H0| |reflexivity|exact H2]; eauto. }
      set (hit := fun s => nelm s <= N /\ exists v, In v (bucket s o) /\ ((R (range s) + 1) * O <= P (d v) < (R (range s) + 2) * O)%Z).
      assert (Hhit : forall s, BInv s d due -> hit s -> (forall j, cur s <= j < o -> bucket s j = []) -> 0 < nelm s -> ends s).
      { intros s0 H0 Hh He Hn. eapply (@ends_walk hit); [| |exact H0|exact Hh|reflexivity|exact He|exact Hn].
        - clear s0 H0 Hh He Hn. intros s0 H0 [Hle Hh] Ec Eb Hn. destruct (unpack_ok H0 Eb Ec Hn) as (s' & A1 & A2 & A3 & A4 & _ & _ & _ & A7).
          eapply ends_step; eauto. destruct (A7 Hh) as (j & Hj & Hb). apply Hahead; auto; [lia|]. exists j. split; auto. lia.
        - intros s1 [Hle1 Hh1]. split; auto. }
      destruct (Nat.eq_dec (nelm s) 0) as [Ez|Nz]; [now apply ends_0|].
      destruct (existsb (fun j => negb (length (bucket s j) =? 0)) (seq (cur s) (o - cur s))) eqn:Eex.
      - apply existsb_exists in Eex as (j & Hj & E). apply in_seq in Hj. apply Hahead; auto; [lia|]. exists j. split; [lia|].
        intros E'. rewrite E' in E. discriminate.
      - assert (He : forall j, cur s <= j < o -> bucket s j = []).
        { intros j Hj. destruct (bucket s j) as [|v l] eqn:Eb; auto. exfalso.
          assert (Hx : existsb (fun j => negb (length (bucket s j) =? 0)) (seq (cur s) (o - cur s)) = true); [|congruence].
          apply existsb_exists. exists j. split; [apply in_seq; lia|]. rewrite Eb. reflexivity. }
        eapply (@ends_walk (fun s => nelm s <= N)); [| |exact H|simpl; lia|reflexivity|exact He|lia]; [|auto].
        clear s H HN Nz Eex He. intros s0 H0 Hle Ec Eb Hn.
        destruct (unpack_ok H0 Eb Ec Hn) as (s' & A1 & A2 & A3 & A4 & _ & _ & A6 & _). eapply ends_step; eauto.
        destruct A6 as [A6|[(j & Hj & Hb)|[Hemp Hh]]].
        + now apply ends_0.
        + apply Hahead; auto; [lia|]. exists j. split; auto. lia.
        + destruct (Nat.eq_dec (nelm s') 0); [now apply ends_0|]. apply Hhit; auto; [|intros; apply Hemp; lia|lia]. split; auto. lia.
    Qed.
  End Ends.

  (* -- moves ----------------------------------------------------------------------------- *)
  Lemma find_move (ms : list move) m : NoDup (map mv_id ms) -> In m ms -> find (fun m' => mv_id m' =? mv_id m) ms = Some m.
  Proof.
    induction ms as [|x ms IH]; simpl; [tauto|]. intros Hnd [->|Hin]; [now rewrite Nat.eqb_refl|].
    inversion Hnd; subst. destruct (Nat.eqb_spec (mv_id x) (mv_id m)) as [E|]; [|auto].
    exfalso. apply H1. rewrite E. now apply in_map.
  Qed.
  Lemma moved_in ms d m : NoDup (map mv_id ms) -> In m ms -> moved ms d (mv_id m) = mv_next m.
  Proof. intros H1 H2. unfold moved. now rewrite find_move. Qed.
  Lemma moved_out ms d v : ~ In v (map mv_id ms) -> moved ms d v = d v.
  Proof.
    intros H. unfold moved. destruct (find _ ms) as [m|] eqn:E; auto. exfalso. apply find_some in E as [E1 E2].
    apply Nat.eqb_eq in E2. subst. apply H. now apply in_map.
  Qed.

  Definition code s d m : option nat :=
    if mv_one_arg m then get_bucket1 inc o s (mv_next m) else get_bucket2 inc o null s (d (mv_id m)) (mv_next m).
  Lemma code_some s d m b : code s d m = Some b -> to_range (range s) (mv_next m) = Some b.
  Proof.
    unfold code, get_bucket1, get_bucket2. destruct (to_range (range s) (mv_next m)) as [nb|]; [|destruct (mv_one_arg m); discriminate].
    destruct (mv_one_arg m); [destruct inc; [destruct (nb =? o)|]|destruct (_ || _)%bool]; congruence.
  Qed.
  Lemma batch_code s d ms : batch inc o null s d ms = map (fun m => (mv_id m, code s d m)) ms.
  Proof. reflexivity. Qed.
  Lemma batch_fits s d due ms : BInv s d due -> fits (length (bk s)) (batch inc o null s d ms).
  Proof.
    intros H v b Hin. rewrite batch_code in Hin. apply in_map_iff in Hin as (m & E & _). injection E as _ E.
    apply code_some in E. rewrite (J_len H). pose proof (Sle _ (J_r H) E). lia.
  Qed.
  Lemma batch_in s d ms j v : In v (map fst (filter (goes j) (batch inc o null s d ms))) <->
    exists m, In m ms /\ mv_id m = v /\ code s d m = Some j.
  Proof.
    rewrite batch_code, in_map_iff. split.
    - intros ([w c] & <- & Hin). apply filter_In in Hin as [Hin Hg]. apply in_map_iff in Hin as (m & E & Hm). injection E as <- <-.
      exists m. split; auto. split; auto. unfold goes in Hg. simpl in Hg. destruct (code s d m); [|discriminate]. apply Nat.eqb_eq in Hg. now subst.
    - intros (m & Hm & <- & E). exists (mv_id m, code s d m). split; auto. apply filter_In. split; [apply in_map_iff; now exists m|].
      unfold goes. simpl. rewrite E. apply Nat.eqb_refl.
  Qed.
  Lemma batch_nodup s d ms j : NoDup (map mv_id ms) -> NoDup (map fst (filter (goes j) (batch inc o null s d ms))).
  Proof.
    rewrite batch_code. induction ms as [|m ms IH]; simpl; [constructor|]. intros Hnd. inversion Hnd; subst.
    destruct (goes j (mv_id m, code s d m)); simpl; auto. constructor; auto. intros Hin.
    rewrite <- batch_code in Hin. apply batch_in in Hin as (m' & A & B & _). apply H1. rewrite <- B. now apply in_map.
  Qed.
  Lemma legal_slot s d due last m : BInv s d due -> (pos s <= P last)%Z -> legal inc null d due last m ->
    (pos s <= P (mv_next m))%Z /\ exists j, to_range (range s) (mv_next m) = Some j /\ cur s <= j.
  Proof.
    intros H Hp (_ & Hl & _). apply NlP in Hl. pose proof (J_r H) as Hr. pose proof (J_cur H) as Hc. split; [lia|].
    destruct (to_range (range s) (mv_next m)) as [j|] eqn:E.
    - exists j. split; auto. destruct (Nat.eq_dec j o) as [->|]; [lia|].
      pose proof (Sle _ Hr E). apply Slt in E; auto; [|lia]. unfold BKProofs.pos in Hp. lia.
    - exfalso. apply Snone in E; auto. unfold BKProofs.pos in Hp. lia.
  Qed.
  (* a move that is not stored leaves the identifier where it already is *)
  Lemma legal_stored s d due last m j : BInv s d due -> (pos s <= P last)%Z -> legal inc null d due last m ->
    to_range (range s) (mv_next m) = Some j -> code s d m = None -> In (mv_id m) (bucket s j) /\ due (mv_id m) = true /\ to_range (range s) (d (mv_id m)) = Some j.
  Proof.
    intros H Hp Hl E Ec. destruct (legal_slot H Hp Hl) as (Hpn & j' & E' & Hj). rewrite E in E'. injection E' as <-.
    destruct Hl as (Hn & Hlast & Hone). unfold code, get_bucket1, get_bucket2 in Ec. rewrite E in Ec. pose proof (J_r H) as Hr.
    destruct (mv_one_arg m).
    - destruct (Bool.bool_dec inc true) as [Ei|Ei]; [|apply Bool.not_true_is_false in Ei; rewrite Ei in Ec at 1; discriminate].
      rewrite Ei in Ec at 1. destruct (Nat.eqb_spec j o) as [->|]; [|discriminate].
      destruct (Hone eq_refl Ei) as [Hd Hlt]. destruct (J_due H _ Hd) as (_ & _ & j & Hj1 & Hj2).
      assert (to_range (range s) (d (mv_id m)) = Some o) as Eo.
      { apply So in E; auto. apply So; auto. assert (He : earlier inc (mv_next m) (d (mv_id m))) by (unfold earlier; now rewrite Ei).
        apply ElP in He. lia. }
      rewrite Eo in Hj1. injection Hj1 as <-. auto.
    - destruct (_ || _)%bool eqn:G; [discriminate|]. apply Bool.orb_false_elim in G as [G G3]. apply Bool.orb_false_elim in G as [G1 G2].
      apply Nat.eqb_neq in G1, G3. apply Bool.negb_false_iff in G2.
      destruct (to_range (range s) (d (mv_id m))) as [p|] eqn:Ep; [|discriminate]. apply Nat.eqb_eq in G2. subst p.
      destruct (due (mv_id m)) eqn:Hd.
      + destruct (J_due H _ Hd) as (_ & _ & j' & Hj1 & Hj2). rewrite Ep in Hj1. injection Hj1 as <-. auto.
      + exfalso. pose proof (J_le H (mv_id m)). destruct (J_not H _ Hd) as [Hle _]; [lia|].
        pose proof (J_cur H) as Hc. apply G3.
        destruct (Nat.eq_dec j o) as [->|]; [apply So in Ep; auto; unfold BKProofs.pos in Hle; nia|].
        pose proof (Sle _ Hr E). apply Slt in Ep; auto; [|lia]. unfold BKProofs.pos in Hle. lia.
  Qed.

  Lemma move_inv s d due last ms : BInv s d due -> (pos s <= P last)%Z -> NoDup (map mv_id ms) ->
    (forall m, In m ms -> legal inc null d due last m) ->
    BInv (update_seq (batch inc o null s d ms) s) (moved ms d) (fun v => due v || mem v (map mv_id ms)).
  Proof.
    intros H Hp Hnd Hl. destruct (update_seq_ok _ (batch_fits ms H)) as (U1 & U2 & U3 & U4 & U5 & U6).
    pose proof (J_r H) as Hr. constructor.
    - rewrite U1. apply H.
    - rewrite U2. apply H.
    - rewrite U4, U5, (J_sum H). lia.
    - rewrite U2. intros j Hj. rewrite U6, (J_past H Hj). simpl.
      destruct (map fst (filter (goes j) (batch inc o null s d ms))) as [|v l] eqn:E; auto. exfalso.
      assert (Hv : In v (map fst (filter (goes j) (batch inc o null s d ms)))) by (rewrite E; now left).
      apply batch_in in Hv as (m & Hm & _ & Ec). apply code_some in Ec. destruct (legal_slot H Hp (Hl m Hm)) as (_ & j' & E' & Hj'). rewrite Ec in E'. injection E' as <-. lia.
    - intros v. destruct (in_dec Nat.eq_dec v (map mv_id ms)) as [Hin|Hout].
      + apply in_map_iff in Hin as (m & <- & Hm). rewrite moved_in by auto. destruct (Hl m Hm). lia.
      + rewrite moved_out by auto. apply H.
    - intros j v Hin. destruct (in_dec Nat.eq_dec v (map mv_id ms)) as [Hm|Hout].
      + apply in_map_iff in Hm as (m & <- & Hm). rewrite moved_in by auto. apply (Hl m Hm).
      + rewrite moved_out by auto. rewrite U6 in Hin. apply in_app_iff in Hin as [Hin|Hin]; [now apply (J_real H j)|].
        exfalso. apply batch_in in Hin as (m & Hm & <- & _). apply Hout. now apply in_map.
    - intros v Hdue. rewrite U3. unfold BKProofs.pos. rewrite U2, U3. fold (pos s). destruct (in_dec Nat.eq_dec v (map mv_id ms)) as [Hm|Hout].
      + apply in_map_iff in Hm as (m & <- & Hm). rewrite moved_in by auto. destruct (legal_slot H Hp (Hl m Hm)) as (A & j & E & Hj).
        split; [apply (Hl m Hm)|]. split; [exact A|]. exists j. split; auto. rewrite U6. apply in_app_iff.
        destruct (code s d m) as [c|] eqn:Ec.
        * right. apply batch_in. exists m. split; auto. split; auto. apply code_some in Ec as E'. congruence.
        * left. now apply (legal_stored H Hp (Hl m Hm)).
      + rewrite moved_out by auto. apply orb_prop in Hdue as [Hdue|Hdue]; [|apply mem_In in Hdue; tauto].
        destruct (J_due H _ Hdue) as (A & B & j & C & D). split; auto. split; auto. exists j. split; auto. rewrite U6. apply in_app_iff. now left.
    - intros v Hnot Hv. apply Bool.orb_false_elim in Hnot as [Hnot Hm].
      assert (Hout : ~ In v (map mv_id ms)) by (rewrite <- mem_In; congruence).
      rewrite moved_out in * by auto. unfold BKProofs.pos. rewrite U2, U3. fold (pos s). destruct (J_not H _ Hnot Hv) as [A B]. split; auto.
      intros E Hin. rewrite U6 in Hin. apply in_app_iff in Hin as [Hin|Hin]; [now apply B|].
      apply batch_in in Hin as (m & Hm' & <- & _). apply Hout. now apply in_map.
    - intros Hi. rewrite U3. split; [now apply (J_rng H)|]. rewrite U6. intros Hne.
      destruct (bucket s o) as [|x l] eqn:Eb; [|apply (J_rng H); auto; rewrite Eb; discriminate].
      simpl in Hne. destruct (map fst (filter (goes o) (batch inc o null s d ms))) as [|v l] eqn:E; [congruence|].
      assert (Hv : In v (map fst (filter (goes o) (batch inc o null s d ms)))) by (rewrite E; now left).
      apply batch_in in Hv as (m & Hm & _ & Ec). apply code_some in Ec. rewrite Hi in Ec. unfold BKModel.to_range in Ec.
      destruct (Nat.leb_spec (range s * o) (mv_next m)); [discriminate|]. destruct (Nat.leb_spec ((range s - 1) * o) (mv_next m)).
      + injection Ec as Ec. lia.
      + destruct (range s) as [|[|r]]; simpl in *; lia.
  Qed.
End BInv.

(* -- the constructor --------------------------------------------------------------------- *)
Lemma min_bucket_spec null l x : In x l -> (forall y, In y l -> x <= y) -> x <= null -> min_bucket null l = x.
Proof.
  intros Hin Hle Hn. unfold min_bucket. apply Nat.le_antisymm.
  - clear Hle Hn. induction l as [|y l IH]; simpl in *; [tauto|]. destruct Hin as [->|Hin]; [lia|]. specialize (IH Hin). lia.
  - clear Hin. induction l as [|y l IH]; simpl in *; auto. apply Nat.min_glb; auto.
Qed.
Lemma max_bucket_spec l x : In x l -> (forall y, In y l -> y <= x) -> max_bucket l = x.
Proof.
  intros Hin Hle. unfold max_bucket. apply Nat.le_antisymm.
  - clear Hin. induction l as [|y l IH]; simpl in *; [lia|]. apply Nat.max_lub; auto.
  - clear Hle. induction l as [|y l IH]; simpl in *; [tauto|]. destruct Hin as [->|Hin]; [lia|]. specialize (IH Hin). lia.
Qed.

Section Make.
  Variable inc : bool.
  Variables o null n : nat.
  Hypothesis Ho : 0 < o.
  Variable d : nat -> nat.
  Variable i : nat.
  Hypothesis Hi : i < n.
  Hypothesis Hd : d i < null.
  Hypothesis Hle : forall j, d j <= null.
  Hypothesis Hfirst : forall j, j < n -> d j < null -> no_later inc (d i) (d j).
  Hypothesis Hout : forall j, n <= j -> d j = null.
  Definition r0 : nat := if inc then min_bucket null (map d (seq 0 n)) / o
             else (max_bucket (map (fun i => if d i =? null then 0 else d i) (seq 0 n)) + o) / o.
  Lemma r0_val : r0 = if inc then d i / o else d i / o + 1.
  Proof.
    unfold r0. destruct inc.
    - f_equal. apply min_bucket_spec; [apply in_map, in_seq; lia| |lia]. intros y Hy. apply in_map_iff in Hy as (j & <- & Hj).
      apply in_seq in Hj. destruct (Nat.eq_dec (d j) null); [lia|]. specialize (Hle j). apply Hfirst; lia.
    - rewrite (@max_bucket_spec _ (d i)).
      + replace (d i + o) with (d i + 1 * o) by lia. rewrite Nat.div_add; lia.
      + apply in_map_iff. exists i. split; [|apply in_seq; lia]. rewrite (proj2 (Nat.eqb_neq _ _)); lia.
      + intros y Hy. apply in_map_iff in Hy as (j & <- & Hj). apply in_seq in Hj. destruct (Nat.eqb_spec (d j) null); [lia|].
        specialize (Hle j). apply Hfirst; lia.
  Qed.
  Lemma r0_pos : inc = false -> 1 <= r0.
  Proof. intros E. rewrite r0_val, E. lia. Qed.
  Lemma first_pos : (R inc r0 r0 * Z.of_nat o <= P inc o r0 (d i))%Z.
  Proof.
    unfold R, P. rewrite r0_val. pose proof (Nat.div_mod (d i) o ltac:(lia)). pose proof (Nat.mod_upper_bound (d i) o ltac:(lia)).
    destruct inc; nia.
  Qed.
  Definition entries := map (fun i => (i, if d i =? null then None else to_range inc o r0 (d i))) (seq 0 n).
  Lemma entries_fits : fits (o + 1) entries.
  Proof.
    intros v b Hin. apply in_map_iff in Hin as (j & E & _). injection E as <- E. destruct (d j =? null); [discriminate|].
    apply (@slot_le inc o r0 Ho) in E; [lia|exact r0_pos].
  Qed.
  Lemma entries_in j v : In v (map fst (filter (goes j) entries)) <-> v < n /\ d v < null /\ to_range inc o r0 (d v) = Some j.
  Proof.
    rewrite in_map_iff. split.
    - intros ([w c] & <- & Hin). apply filter_In in Hin as [Hin Hg]. apply in_map_iff in Hin as (k & E & Hk). injection E as <- <-.
      apply in_seq in Hk. unfold goes in Hg. simpl in *. destruct (Nat.eqb_spec (d k) null); [discriminate|].
      destruct (to_range inc o r0 (d k)); [|discriminate]. apply Nat.eqb_eq in Hg. subst. specialize (Hle k). repeat split; auto; lia.
    - intros (H1 & H2 & H3). exists (v, to_range inc o r0 (d v)). split; auto. apply filter_In. split.
      + apply in_map_iff. exists v. split; [|apply in_seq; lia]. rewrite (proj2 (Nat.eqb_neq _ _)); auto. lia.
      + unfold goes. simpl. rewrite H3. apply Nat.eqb_refl.
  Qed.
  Lemma entries_nodup j : NoDup (map fst (filter (goes j) entries)).
  Proof.
    unfold entries. pose proof (seq_NoDup n 0) as Hnd. revert Hnd. generalize (seq 0 n) as l.
    induction l as [|x l IH]; simpl; [constructor|]. intros Hnd. inversion Hnd; subst. destruct (goes j _); simpl; auto. constructor; auto.
    intros Hin. apply in_map_iff in Hin as ([w c] & <- & Hin). apply filter_In in Hin as [Hin _]. apply in_map_iff in Hin as (k & E & Hk).
    injection E as <- _. auto.
  Qed.
  Lemma make_eq : make inc o null n d = update_seq entries {| bk := repeat [] (o + 1); cur := 0; range := r0; nelm := 0 |}.
  Proof. reflexivity. Qed.
  Lemma make_buckets j : bucket (make inc o null n d) j = map fst (filter (goes j) entries).
  Proof.
    rewrite make_eq. edestruct (@update_seq_ok entries) as (_ & _ & _ & _ & _ & E); [|rewrite E].
    - simpl. rewrite repeat_length. apply entries_fits.
    - unfold bucket at 1. simpl. destruct (nth_in_or_default j (repeat (@nil nat) (o + 1)) []) as [Hn| ->]; auto.
      apply repeat_spec in Hn. now rewrite Hn.
  Qed.
  Lemma make_range : range (make inc o null n d) = r0 /\ cur (make inc o null n d) = 0.
  Proof.
    rewrite make_eq. edestruct (@update_seq_ok entries) as (_ & E1 & E2 & _); [|rewrite E1, E2; auto].
    simpl. rewrite repeat_length. apply entries_fits.
  Qed.
  Lemma make_inv : BInv inc o null r0 (make inc o null n d) d (fun v => (v <? n) && (d v <? null)).
  Proof.
    assert (Hf : fits (length (repeat (@nil nat) (o + 1))) entries) by (rewrite repeat_length; apply entries_fits).
    destruct (@update_seq_ok entries {| bk := repeat [] (o + 1); cur := 0; range := r0; nelm := 0 |} Hf) as (U1 & U2 & U3 & U4 & U5 & _).
    destruct make_range as [Mr Mc]. pose proof r0_pos as Hr. pose proof first_pos as Hf0.
    constructor.
    - rewrite make_eq, U1. simpl. now rewrite repeat_length.
    - rewrite Mc. auto.
    - rewrite make_eq, U4, U5. simpl. enough (E : list_sum (map (@length nat) (repeat [] (o + 1))) = 0) by lia.
      clear. induction (o + 1); simpl; auto.
    - rewrite Mc. intros; lia.
    - auto.
    - intros j v. rewrite make_buckets, entries_in. tauto.
    - intros v Hv. apply andb_prop in Hv as [H1 H2]. apply Nat.ltb_lt in H1, H2. split; auto.
      assert (Hp : (P inc o r0 (d i) <= P inc o r0 (d v))%Z) by (apply no_later_P; auto).
      unfold pos. rewrite Mr, Mc. split; [lia|]. destruct (to_range inc o r0 (d v)) as [j|] eqn:E.
      + exists j. split; auto. rewrite make_buckets, entries_in. auto.
      + exfalso. apply (@slot_none inc o r0 Ho) in E; auto. lia.
    - intros v Hv Hn. exfalso. apply Bool.andb_false_iff in Hv as [Hv|Hv]; apply Nat.ltb_ge in Hv; [|lia]. specialize (Hout Hv). lia.
    - intros Ei. rewrite Mr. split; auto. rewrite make_buckets. intros Hne.
      destruct (map fst (filter (goes o) entries)) as [|v l] eqn:E; [congruence|].
      assert (Hv : In v (map fst (filter (goes o) entries))) by (rewrite E; now left).
      apply entries_in in Hv as (_ & _ & Ev). rewrite Ei in Ev. unfold to_range in Ev.
      destruct (Nat.leb_spec (r0 * o) (d v)); [discriminate|]. destruct (Nat.leb_spec ((r0 - 1) * o) (d v)).
      + injection Ev as Ev. lia.
      + destruct r0 as [|[|r]]; simpl in *; lia.
  Qed.
End Make.

Section Run.
  Variable inc : bool.
  Variables o null n : nat.
  Hypothesis Ho : 0 < o.
  Variable d0 : nat -> nat.
  Notation pos t := (pos inc o t).
  Notation P t := (P inc o t).
  Notation BInv t := (BInv inc o null t).

  Record good (t : nat) (s : bst) (d : nat -> nat) (due : nat -> bool) (last : nat) : Prop := {
    G_inv : BInv t s d due;
    G_pos : (pos t s <= P t last)%Z;
    G_due : forall v, due v = true -> (P t last <= P t (d v))%Z
  }.

  Record keeps (ok : (nat -> nat) -> (nat -> bool) -> move -> Prop) (K : nat -> bst -> (nat -> nat) -> (nat -> bool) -> Prop) : Prop := {
    K_start : forall i, i < n -> d0 i < null -> (forall j, d0 j <= null) ->
      (forall j, j < n -> d0 j < null -> no_later inc (d0 i) (d0 j)) -> (forall j, n <= j -> d0 j = null) ->
      K (r0 inc o null n d0) (make inc o null n d0) d0 (fun v => (v <? n) && (d0 v <? null));
    K_within : forall t s d due, BInv t s d due -> K t s d due -> bucket s (cur s) = [] -> cur s + 1 < o ->
      K t {| bk := bk s; cur := cur s + 1; range := range s; nelm := nelm s |} d due;
    K_unpack : forall t s s' d due, BInv t s d due -> K t s d due -> advance inc o d s = Some s' ->
      (forall j v, In v (bucket s' j) -> to_range inc o (range s') (d v) = Some j /\ In v (bucket s o)) ->
      (NoDup (bucket s o) -> forall j, NoDup (bucket s' j)) -> BInv t s' d due -> K t s' d due;
    K_extract : forall t s d due, BInv t s d due -> K t s d due ->
      K t (extracted s) d (fun v => due v && negb (mem v (filter (fun i => d i =? cur_num inc o s) (bucket s (cur s)))));
    K_ext : forall t s d due due', (forall v, due' v = due v) -> K t s d due -> K t s d due';
    K_move : forall t s d due last ms, good t s d due last -> K t s d due -> NoDup (map mv_id ms) ->
      (forall m, In m ms -> legal inc null d due last m /\ ok d due m) ->
      K t (update_seq (batch inc o null s d ms) s) (moved ms d) (fun v => due v || mem v (map mv_id ms))
  }.

  Section Keep.
    Variable ok : (nat -> nat) -> (nat -> bool) -> move -> Prop.
    Variable K : nat -> bst -> (nat -> nat) -> (nat -> bool) -> Prop.
    Hypothesis HKeep : keeps ok K.

    Lemma next_K t fuel s d due r s' : BInv t s d due -> K t s d due -> next_bucket inc o fuel d s = Ret r s' ->
      exists s0, BInv t s0 d due /\ K t s0 d due /\
        match r with
        | None => nelm s0 = 0 /\ s' = s0
        | Some (b, L) => b = cur_num inc o s0 /\ L = filter (fun i => d i =? cur_num inc o s0) (bucket s0 (cur s0)) /\ L <> [] /\ s' = extracted s0
        end.
    Proof.
      intros H HK E. eapply (@next_reach inc o null t Ho d due (fun s => K t s d due)); eauto; [intros; now apply (K_within HKeep)|intros s1 s2 X1 X2 X3 X4 X5 X6; exact (K_unpack HKeep X1 X2 X3 X4 X5 X6)|].
      intros s1 H1 K1 E1. pose proof (K_extract HKeep H1 K1) as K2. rewrite E1 in K2. eapply (K_ext HKeep); [|exact K2].
      intros v. simpl. now rewrite Bool.andb_true_r.
    Qed.

    Lemma run_good s d due last : run inc o null n d0 ok s d due last -> exists t, good t s d due last /\ K t s d due.
    Proof.
      induction 1 as [i Hi Hd Hle Hfirst Hout|s d due last fuel b L s' _ (t & G & HK) E|s d due last ms _ (t & G & HK) Hnd Hms].
      - exists (r0 inc o null n d0). split; [|eapply (K_start HKeep); eauto]. constructor.
        + eapply make_inv; eauto.
        + unfold BKProofs.pos. destruct (@make_range inc o null n Ho d0 i) as [-> ->]; auto. rewrite Z.add_0_r. eapply first_pos; eauto.
        + intros v Hv. apply andb_prop in Hv as [H1 H2]. apply Nat.ltb_lt in H1, H2. apply no_later_P; auto.
      - exists t. destruct (next_K _ (G_inv G) HK E) as (s0 & H0 & K0 & -> & -> & Hne & ->). split; [|now apply (K_extract HKeep)].
        constructor.
        + now apply extract_inv.
        + unfold BKProofs.pos. simpl. fold (pos t s0). rewrite cur_num_P; [lia|exact Ho|exact (J_r H0)|exact (J_cur H0)].
        + intros v Hv. apply andb_prop in Hv as [Hv _]. rewrite cur_num_P; [|exact Ho|exact (J_r H0)|exact (J_cur H0)]. apply (J_due H0 _ Hv).
      - exists t. split; [|eapply (K_move HKeep); eauto]. constructor.
        + exact (move_inv Ho ms (G_inv G) (G_pos G) Hnd (fun m Hm => proj1 (Hms m Hm))).
        + assert (Hf := @batch_fits inc o null t Ho s d due ms (G_inv G)). destruct (update_seq_ok s Hf) as (_ & U2 & U3 & _). unfold BKProofs.pos. rewrite U2, U3. apply G.
        + intros v Hv. destruct (in_dec Nat.eq_dec v (map mv_id ms)) as [Hin|Hin].
          * apply in_map_iff in Hin as (m & <- & Hm). rewrite moved_in by auto. apply no_later_P; [exact Ho|]. now apply (Hms m Hm).
          * rewrite moved_out by auto. apply orb_prop in Hv as [Hv|Hv]; [now apply G|]. apply mem_In in Hv. tauto.
    Qed.
  End Keep.

  (* -- K1: moves that bring an identifier closer ----------------------------------------- *)
  Definition K1 (t : nat) (s : bst) (d : nat -> nat) (due : nat -> bool) : Prop :=
    (forall j, NoDup (bucket s j)) /\
    forall j v, j < o -> In v (bucket s j) -> (P t (d v) <= R inc t (range s) * Z.of_nat o + Z.of_nat j)%Z.
  (* -- K2: moves of identifiers that are not in the structure ----------------------------- *)
  Definition K2 (t : nat) (s : bst) (d : nat -> nat) (due : nat -> bool) : Prop :=
    (forall j, NoDup (bucket s j)) /\
    forall j v, In v (bucket s j) -> due v = true /\ to_range inc o (range s) (d v) = Some j.

  Lemma K1_keeps : keeps (closer inc null) K1.
  Proof.
    constructor.
    - intros i Hi Hd Hle Hfirst Hout. split.
      + intros j. rewrite make_buckets with (i := i); auto. apply entries_nodup.
      + intros j v Hj. rewrite make_buckets with (i := i); auto. rewrite entries_in with (i := i); auto. intros (_ & _ & E).
        destruct (@make_range inc o null n Ho d0 i) as [-> _]; auto.
        apply slot_lt with (t := r0 inc o null n d0) in E; auto; [lia|]. eapply r0_pos; eauto.
    - intros t s1 d1 due1 H [A B] _ _. split; auto.
    - intros t s1 s2 d1 due1 H [A B] _ C D H'. split; auto. intros j v Hj Hin. apply C in Hin as [E _].
      apply slot_lt with (t := t) in E; auto; [lia|exact (J_r H')].
    - intros t s1 d1 due1 H [A B]. split.
      + intros j. rewrite (bucket_extracted Ho j H). destruct (j =? cur s1); auto. constructor.
      + intros j v Hj. rewrite (bucket_extracted Ho j H). simpl. destruct (j =? cur s1); auto. intros [].
    - intros t s1 d1 due1 due2 _ A. exact A.
    - intros t s d due last ms G [A B] Hnd Hms. pose proof (G_inv G) as H. pose proof (J_r H) as Hr.
      pose proof (update_seq_ok s (@batch_fits inc o null t Ho s d due ms H)) as (U1 & U2 & U3 & U4 & U5 & U6).
      assert (Hfresh : forall m j, In m ms -> code inc o null s d m = Some j -> ~ In (mv_id m) (bucket s j)).
      { intros m j Hm Ec Hin. destruct (Hms m Hm) as [Hl Hc]. pose proof (code_some _ _ _ _ _ _ Ec) as E.
        destruct (legal_slot Ho H (G_pos G) Hl) as (Hp & j' & E' & Hj). rewrite E in E'. injection E' as <-.
        pose proof (J_real H _ _ Hin) as Hreal. destruct Hc as [Hc|[(Hd & He & Hone)|(Hd & He)]]; [lia| |].
        - apply (@earlier_P inc o t Ho) in He. pose proof (slot_le t Ho _ Hr E) as Hjo.
          destruct (Nat.eq_dec j o) as [->|Nj].
          + apply slot_o with (t := t) in E as Eo; auto.
            assert (Ed : to_range inc o (range s) (d (mv_id m)) = Some o) by (apply slot_o with (t := t); auto; lia).
            unfold code in Ec. destruct (mv_one_arg m).
            * unfold get_bucket1 in Ec. rewrite E, (Hone eq_refl), Nat.eqb_refl in Ec. discriminate.
            * unfold get_bucket2 in Ec. rewrite E, Ed, Nat.eqb_refl in Ec. rewrite (proj2 (Nat.eqb_neq _ null)) in Ec by lia.
              pose proof (J_cur H). rewrite (proj2 (Nat.eqb_neq o (cur s))) in Ec by lia. discriminate.
          + specialize (B j (mv_id m) ltac:(lia) Hin). apply slot_lt with (t := t) in E; auto; lia.
        - apply (@no_later_P inc o t Ho) in He. destruct (J_not H _ Hd Hreal) as [Hn1 Hn2].
          assert (Eq : P t (mv_next m) = pos t s) by lia. assert (Eqd : P t (d (mv_id m)) = pos t s) by lia.
          apply (Hn2 Eqd). assert (j = cur s) as <-; auto. pose proof (J_cur H) as Hcur.
          destruct (Nat.eq_dec j o) as [->|Nj]; [apply slot_o with (t := t) in E; auto; unfold BKProofs.pos in Eq; lia|].
          pose proof (slot_le t Ho _ Hr E) as Hjo. apply slot_lt with (t := t) in E; auto; [|lia]. unfold BKProofs.pos in Eq. lia. }
      split.
      + intros j. rewrite U6. apply NoDup_app_iff. split; auto. split; [now apply batch_nodup|].
        intros v Hv1 Hv2. apply batch_in in Hv2 as (m & Hm & <- & Ec). now apply (Hfresh m j).
      + intros j v Hj Hin. rewrite U3. rewrite U6 in Hin. apply in_app_iff in Hin as [Hin|Hin].
        * specialize (B j v Hj Hin). destruct (in_dec Nat.eq_dec v (map mv_id ms)) as [Hv|Hv]; [|rewrite moved_out; auto].
          apply in_map_iff in Hv as (m & <- & Hm). rewrite moved_in by auto. destruct (Hms m Hm) as [_ Hc].
          pose proof (J_real H _ _ Hin) as Hreal. destruct Hc as [Hc|[(_ & He & _)|(_ & He)]]; [lia| |].
          -- apply (@earlier_P inc o t Ho) in He. lia.
          -- apply (@no_later_P inc o t Ho) in He. lia.
        * apply batch_in in Hin as (m & Hm & <- & Ec). rewrite moved_in by auto. apply code_some in Ec.
          apply slot_lt with (t := t) in Ec; auto; lia.
  Qed.

  Lemma K2_keeps : keeps (fun _ => requeue) K2.
  Proof.
    constructor.
    - intros i Hi Hd Hle Hfirst Hout. split.
      + intros j. rewrite make_buckets with (i := i); auto. apply entries_nodup.
      + intros j v. rewrite make_buckets with (i := i); auto. rewrite entries_in with (i := i); auto. intros (A & B & E).
        destruct (@make_range inc o null n Ho d0 i) as [-> _]; auto. apply Nat.ltb_lt in A, B. now rewrite A, B.
    - intros t s1 d1 due1 H [A B] _ _. split; auto.
    - intros t s1 s2 d1 due1 H [A B] _ C D H'. split; auto. intros j v Hin. apply C in Hin as [E Hin]. split; auto. now apply (B o).
    - intros t s1 d1 due1 H [A B]. split.
      + intros j. rewrite (bucket_extracted Ho j H). destruct (j =? cur s1); auto. constructor.
      + intros j v. rewrite (bucket_extracted Ho j H). simpl. destruct (Nat.eqb_spec j (cur s1)) as [|Nj]; [intros []|].
        intros Hin. destruct (B _ _ Hin) as [B1 B2]. rewrite B1. split; auto. simpl.
        destruct (mem v _) eqn:E; auto. exfalso. apply mem_In, filter_In in E as [E _]. apply B in E as [_ E]. congruence.
    - intros t s1 d1 due1 due2 E [A B]. split; auto. intros j v Hin. rewrite E. auto.
    - intros t s d due last ms G [A B] Hnd Hms. pose proof (G_inv G) as H.
      pose proof (update_seq_ok s (@batch_fits inc o null t Ho s d due ms H)) as (U1 & U2 & U3 & U4 & U5 & U6).
      assert (Hfresh : forall m j, In m ms -> ~ In (mv_id m) (bucket s j)).
      { intros m j Hm Hin. destruct (Hms m Hm) as [_ Hq]. destruct (B _ _ Hin) as [B1 _]. unfold requeue in Hq. congruence. }
      split.
      + intros j. rewrite U6. apply NoDup_app_iff. split; auto. split; [now apply batch_nodup|].
        intros v Hv1 Hv2. apply batch_in in Hv2 as (m & Hm & <- & Ec). now apply (Hfresh m j).
      + intros j v Hin. rewrite U3. rewrite U6 in Hin. apply in_app_iff in Hin as [Hin|Hin].
        * rewrite moved_out; [destruct (B _ _ Hin) as [-> B2]; auto|]. intros Hv. apply in_map_iff in Hv as (m & <- & Hm). now apply (Hfresh m j).
        * apply batch_in in Hin as (m & Hm & <- & Ec). rewrite moved_in by auto. apply code_some in Ec. split; auto.
          rewrite (proj2 (mem_In _ _)); [apply Bool.orb_true_r|now apply in_map].
  Qed.
End Run.

(* -- update_buckets ------------------------------------------------------------------------ *)
Section Par.
  Variable o g : nat.
  Hypothesis Hg : 0 < g.
  Notation entry := (nat * option nat)%type.
  Implicit Type l : list entry.
  Definition cntb (b : nat) l : nat := length (filter (goes b) l).
  Lemma cntb_app b l1 l2 : cntb b (l1 ++ l2) = cntb b l1 + cntb b l2.
  Proof. unfold cntb. now rewrite filter_app, app_length. Qed.

  Lemma scan_nth (l : list nat) acc p : p < length l -> nth p (scan_from acc l) 0 = acc + list_sum (firstn p l).
  Proof.
    revert acc p; induction l as [|x l IH]; intros acc [|p] H; simpl in *; try lia. rewrite IH by lia. lia.
  Qed.
  Lemma nb_pos k : 0 < num_blocks g k.
  Proof. unfold num_blocks. assert (H := Nat.pow_nonzero 2 (Nat.log2_up (k / g)) ltac:(lia)). lia. Qed.
  Lemma list_sum_app' a b : list_sum (a ++ b) = list_sum a + list_sum b.
  Proof. induction a; simpl; lia. Qed.

  Section L.
    Variable l : list entry.
    Notation nb := (num_blocks g (length l)).
    Notation bs := (block_size g (length l)).
    Lemma firstn_map_seq {A} (f : nat -> A) p m k : p <= k -> firstn p (map f (seq m k)) = map f (seq m p).
    Proof. revert m p; induction k; intros m [|p] H; simpl; try lia; auto. f_equal. apply IHk. lia. Qed.
    Lemma outs_nth p : p <= nb * (o + 1) -> nth p (outs o g l) 0 = list_sum (map (fun i => hist g l (i mod nb) (i / nb)) (seq 0 p)).
    Proof.
      intros Hp. unfold outs. rewrite scan_nth by (rewrite app_length, map_length, seq_length; simpl; lia). rewrite Nat.add_0_l.
      rewrite firstn_app, map_length, seq_length. replace (p - nb * (o + 1)) with 0 by lia. rewrite firstn_O, app_nil_r.
      now rewrite firstn_map_seq.
    Qed.
    Lemma off_sum b i : b <= o -> i <= nb ->
      nth (b * nb + i) (outs o g l) 0 - nth (b * nb) (outs o g l) 0 = list_sum (map (fun i' => hist g l i' b) (seq 0 i)).
    Proof.
      intros Hb Hi. pose proof (nb_pos (length l)) as Hnb. rewrite !outs_nth by nia. clear Hb. revert Hi.
      induction i as [|i IH]; intros Hi; [rewrite Nat.add_0_r; simpl; lia|]. specialize (IH ltac:(lia)).
      replace (b * nb + S i) with (S (b * nb + i)) by lia. rewrite !seq_S, !map_app, !list_sum_app'.
      cbn [map list_sum fold_right]. rewrite !Nat.add_0_l, !Nat.add_0_r.
      replace ((b * nb + i) mod nb) with i by (apply Nat.mod_unique with (q := b); lia).
      replace ((b * nb + i) / nb) with b by (apply Nat.div_unique with (r := i); lia).
      assert (list_sum (map (fun i => hist g l (i mod nb) (i / nb)) (seq 0 (b * nb))) <= list_sum (map (fun i => hist g l (i mod nb) (i / nb)) (seq 0 (b * nb + i)))).
      { rewrite seq_app, map_app, list_sum_app'. lia. }
      lia.
    Qed.
    (* the first i blocks *)
    Lemma blocks_prefix i : concat (map (upd_block g l) (seq 0 i)) = firstn (i * bs) l.
    Proof.
      induction i as [|i IH]; auto. rewrite seq_S, map_app, concat_app, IH. simpl. rewrite app_nil_r. unfold upd_block.
      replace (bs + i * bs) with (i * bs + bs) by lia. generalize bs as c, (i * bs) as a. clear. intros c a.
      revert l; induction a as [|a IH]; intros l; simpl; auto. destruct l; simpl; [now rewrite firstn_nil|]. f_equal. apply IH.
    Qed.
    Lemma blocks_all : concat (map (upd_block g l) (seq 0 nb)) = l.
    Proof.
      rewrite blocks_prefix. apply firstn_all2. pose proof (nb_pos (length l)) as Hnb. unfold block_size. generalize dependent nb. intros c Hc.
      pose proof (Nat.div_mod (length l + c - 1) c ltac:(lia)). pose proof (Nat.mod_upper_bound (length l + c - 1) c ltac:(lia)). nia.
    Qed.
    Lemma hist_sum b i : list_sum (map (fun i' => hist g l i' b) (seq 0 i)) = cntb b (concat (map (upd_block g l) (seq 0 i))).
    Proof.
      induction i as [|i IH]; auto. rewrite seq_S, !map_app, concat_app, list_sum_app', cntb_app, IH. simpl. rewrite app_nil_r, Nat.add_0_r. reflexivity.
    Qed.
    Lemma num_inc_eq b : b <= o -> num_inc o g l b = cntb b l.
    Proof.
      intros Hb. unfold num_inc. replace ((b + 1) * nb) with (b * nb + nb) by lia. rewrite off_sum by lia. now rewrite hist_sum, blocks_all.
    Qed.
    Lemma start_off_eq b i : b <= o -> i <= nb -> start_off o g l b i = cntb b (concat (map (upd_block g l) (seq 0 i))).
    Proof. intros Hb Hi. unfold start_off. now rewrite off_sum, hist_sum by lia. Qed.
  End L.

  Lemma block_stores_ext s l : forall c1 c2, (forall v b, In (v, Some b) l -> c1 b = c2 b) -> block_stores s c1 l = block_stores s c2 l.
  Proof.
    induction l as [|[v [b|]] l IH]; intros c1 c2 H; simpl; auto.
    - rewrite (H v b) by now left. f_equal. apply IH. intros w c Hin. unfold fset. destruct (Nat.eqb_spec c b); auto.
      apply (H w). now right.
    - apply IH. intros w c Hin. apply (H w). now right.
  Qed.
  Lemma block_stores_app s l1 : forall c l2, block_stores s c (l1 ++ l2) = block_stores s c l1 ++ block_stores s (fun b => c b + cntb b l1) l2.
  Proof.
    induction l1 as [|[v [b|]] l1 IH]; intros c l2; simpl.
    - apply block_stores_ext. intros. unfold cntb. simpl. lia.
    - f_equal. rewrite IH. f_equal. apply block_stores_ext. intros w b' _. unfold cntb, fset. simpl. unfold goes at 2. simpl.
      rewrite (Nat.eqb_sym b b'). destruct (Nat.eqb_spec b' b) as [->|]; simpl; lia.
    - rewrite IH. reflexivity.
  Qed.
  Lemma all_stores_eq l s : fits (o + 1) l -> all_stores o g l s = block_stores s (fun _ => 0) l.
  Proof.
    intros Hf. unfold all_stores. set (nb := num_blocks g (length l)).
    assert (H : forall i, i <= nb -> flat_map (fun i => block_stores s (fun b => start_off o g l b i) (upd_block g l i)) (seq 0 i)
       = block_stores s (fun _ => 0) (concat (map (upd_block g l) (seq 0 i)))).
    { induction i as [|i IH]; intros Hi; auto. rewrite seq_S, flat_map_app, map_app, concat_app, IH by lia. rewrite block_stores_app. f_equal.
      simpl. rewrite !app_nil_r. apply block_stores_ext. intros v b Hin. rewrite start_off_eq; auto; [|lia].
      assert (b < o + 1); [|lia]. apply (Hf v). unfold upd_block in Hin.
      rewrite <- (firstn_skipn (i * block_size g (length l)) l). apply in_app_iff. right.
      rewrite <- (firstn_skipn (block_size g (length l)) (skipn (i * block_size g (length l)) l)). apply in_app_iff. now left. }
    rewrite H by lia. unfold nb. now rewrite blocks_all.
  Qed.

  Lemma run_bstores_len order : forall arr arr', run_bstores order arr = Some arr' -> length arr' = length arr.
  Proof.
    induction order as [|[[b p] v] order IH]; simpl; intros arr arr' E; [congruence|].
    destruct (_ && _)%bool; [|discriminate]. apply IH in E. now rewrite length_lset in E.
  Qed.
  Lemma run_bstores_perm o1 o2 : Permutation o1 o2 -> NoDup (map fst o1) -> forall arr, run_bstores o1 arr = run_bstores o2 arr.
  Proof.
    induction 1 as [|[[b p] v] o1 o2 Hp IH|[[b p] v] [[b' p'] v'] o1|o1 o2 o3 H1 IH1 H2 IH2]; intros Hnd arr; auto.
    - simpl in *. inversion Hnd; subst. destruct (_ && _)%bool; auto.
    - simpl in *. inversion Hnd; subst. assert (Hne : (b, p) <> (b', p')) by (intros E; apply H1; rewrite E; now left). clear Hnd H1 H2.
      rewrite !length_lset. destruct (Nat.ltb_spec b (length arr)) as [Hb|Hb], (Nat.ltb_spec b' (length arr)) as [Hb'|Hb']; cbn [andb]; auto;
        rewrite ?nth_lset; try (destruct (p <? _); now auto); try (destruct (p' <? _); now auto).
      rewrite (proj2 (Nat.ltb_lt _ _) Hb), (proj2 (Nat.ltb_lt _ _) Hb').
      destruct (Nat.eqb_spec b b') as [<-|Nb].
      + rewrite Nat.eqb_refl. simpl. rewrite !length_lset. destruct (p <? length (nth b arr [])), (p' <? length (nth b arr [])); auto.
        f_equal. apply list_ext_nth with (d := []); [now rewrite !length_lset|]. intros i Hi. rewrite !length_lset in Hi.
        rewrite !nth_lset, !length_lset, (proj2 (Nat.ltb_lt _ _) Hb). destruct (Nat.eqb_spec b i) as [<-|]; simpl; auto.
        apply list_ext_nth with (d := 0); [now rewrite !length_lset|]. intros q Hq. rewrite !length_lset in Hq.
        rewrite !nth_lset, !length_lset. destruct (Nat.eqb_spec p q), (Nat.eqb_spec p' q); subst; simpl; auto. exfalso. now apply Hne.
      + rewrite (proj2 (Nat.eqb_neq b' b)) by lia. simpl.
        destruct (p <? length (nth b arr [])), (p' <? length (nth b' arr [])); auto.
        f_equal. apply list_ext_nth with (d := []); [now rewrite !length_lset|]. intros i Hi. rewrite !length_lset in Hi.
        rewrite !nth_lset, !length_lset, (proj2 (Nat.ltb_lt _ _) Hb), (proj2 (Nat.ltb_lt _ _) Hb').
        destruct (Nat.eqb_spec b i), (Nat.eqb_spec b' i); subst; simpl; auto. lia.
    - rewrite IH1 by auto. apply IH2. eapply Permutation_NoDup; [|exact Hnd]. now apply Permutation_map.
  Qed.
  Lemma block_stores_ge s l : forall c b p v, In (b, p, v) (block_stores s c l) -> length (bucket s b) + c b <= p.
  Proof.
    induction l as [|[w [b'|]] l IH]; intros c b p v Hin; simpl in Hin; [tauto| |eauto].
    destruct Hin as [E|Hin]; [injection E as <- <- <-; lia|]. apply IH in Hin. unfold fset in Hin. destruct (Nat.eqb_spec b b'); subst; lia.
  Qed.
  Lemma block_stores_nodup s l : forall c, NoDup (map fst (block_stores s c l)).
  Proof.
    induction l as [|[w [b'|]] l IH]; intros c; simpl; [constructor| |auto]. constructor; auto. intros Hin.
    apply in_map_iff in Hin as ([[b p] v] & E & Hin). injection E as -> ->. apply block_stores_ge in Hin. rewrite fset_same in Hin. lia.
  Qed.
  Lemma run_block_stores s junk l : forall c q, fits (o + 1) l -> (forall b, length (q b) = c b) ->
    run_bstores (block_stores s c l) (map (fun b => bucket s b ++ q b ++ repeat junk (cntb b l)) (seq 0 (o + 1)))
    = Some (map (fun b => bucket s b ++ q b ++ map fst (filter (goes b) l)) (seq 0 (o + 1))).
  Proof.
    induction l as [|[v [b|]] l IH]; intros c q Hf Hq; simpl.
    - reflexivity.
    - assert (Hb : b < o + 1) by (apply (Hf v); now left). rewrite map_length, seq_length, (proj2 (Nat.ltb_lt _ _) Hb).
      rewrite nth_map_seq by auto. rewrite !app_length, repeat_length, Hq.
      assert (Ec : cntb b ((v, Some b) :: l) = S (cntb b l)) by (unfold cntb; simpl; unfold goes at 1; simpl; now rewrite Nat.eqb_refl).
      rewrite Ec. rewrite (proj2 (Nat.ltb_lt _ _)) by lia. simpl.
      eapply eq_trans; [|eapply eq_trans; [apply (IH (fset c b (c b + 1)) (fset q b (q b ++ [v])))|]].
      + f_equal. apply list_ext_nth with (d := []); [rewrite length_lset, !map_length; reflexivity|]. intros i Hi.
        rewrite length_lset, map_length, seq_length in Hi. rewrite nth_lset, map_length, seq_length, (proj2 (Nat.ltb_lt _ _) Hb), !nth_map_seq by auto.
        destruct (Nat.eqb_spec b i) as [<-|Ni]; simpl.
        * rewrite fset_same. replace (length (bucket s b) + c b) with (length (bucket s b ++ q b) + 0) by (rewrite app_length, Hq; lia).
          rewrite app_assoc. 
          assert (Hl : forall (x y : list nat) w z, lset (x ++ z :: y) (length x + 0) w = x ++ w :: y) by (induction x; simpl; intros; [auto|f_equal; auto]).
          rewrite Hl, <- !app_assoc. reflexivity.
        * rewrite fset_other by auto. unfold cntb. simpl. unfold goes at 1. simpl. rewrite (proj2 (Nat.eqb_neq _ _) Ni). reflexivity.
      + intros w c' Hin. apply (Hf w). now right.
      + intros b'. unfold fset. destruct (Nat.eqb_spec b' b); subst; rewrite ?app_length, ?Hq; simpl; lia.
      + f_equal. apply map_ext. intros b'. unfold goes at 2. simpl. rewrite (Nat.eqb_sym b b'). unfold fset. destruct (Nat.eqb_spec b' b); subst; simpl; auto.
        now rewrite <- !app_assoc.
    - apply IH; auto. intros w c' Hin. apply (Hf w). now right.
  Qed.
  Lemma sum_cntb l : fits (o + 1) l -> list_sum (map (fun b => cntb b l) (seq 0 (o + 1))) = length (filter dest l).
  Proof.
    induction l as [|[v [b|]] l IH]; intros Hf.
    - cbn [filter length]. apply list_sum_map_0. reflexivity.
    - assert (Hb : b < o + 1) by (apply (Hf v); now left). cbn [filter dest snd length]. rewrite <- IH by (intros w c Hin; apply (Hf w); now right).
      replace (o + 1) with (b + S (o - b)) by lia. rewrite !seq_app, !map_app, !list_sum_app'. cbn [seq map list_sum fold_right].
      assert (He : forall k m, (m + k <= b \/ b < m) -> list_sum (map (fun b' => cntb b' ((v, Some b) :: l)) (seq m k)) = list_sum (map (fun b' => cntb b' l) (seq m k))).
      { intros k m H. f_equal. apply map_ext_in. intros b' Hb'. apply in_seq in Hb'. unfold cntb. simpl. unfold goes at 1. simpl.
        rewrite (proj2 (Nat.eqb_neq b b')); auto. lia. }
      fold (@list_sum). rewrite !Nat.add_0_l. rewrite (He b 0) by lia. 
      assert (E1 : cntb b ((v, Some b) :: l) = S (cntb b l)) by (unfold cntb; simpl; unfold goes at 1; simpl; now rewrite Nat.eqb_refl).
      rewrite E1. specialize (He (o - b) (S b) ltac:(lia)). unfold list_sum in *. lia.
    - cbn [filter dest snd]. rewrite <- IH by (intros w c Hin; apply (Hf w); now right). reflexivity.
  Qed.

  Theorem update_par_seq order junk l s : length (bk s) = o + 1 -> fits (o + 1) l -> Permutation order (all_stores o g l s) ->
    update_par o g order junk l s = Some (update_seq l s).
  Proof.
    intros HL Hf Hp. rewrite all_stores_eq in Hp by auto. unfold update_par.
    rewrite (run_bstores_perm Hp) by (eapply Permutation_NoDup; [apply Permutation_map, Permutation_sym, Hp|apply block_stores_nodup]).
    assert (E : forall b, In b (seq 0 (o + 1)) -> num_inc o g l b = cntb b l) by (intros b Hb; apply in_seq in Hb; apply num_inc_eq; lia).
    rewrite (map_ext_in _ _ _ E). rewrite sum_cntb by auto.
    replace (map (fun b => bucket s b ++ repeat junk (num_inc o g l b)) (seq 0 (o + 1)))
      with (map (fun b => bucket s b ++ [] ++ repeat junk (cntb b l)) (seq 0 (o + 1))).
    2:{ apply map_ext_in. intros b Hb. now rewrite E. }
    rewrite (@run_block_stores s junk l (fun _ => 0) (fun _ => [])) by auto.
    f_equal. rewrite <- HL in Hf. destruct (update_seq_ok s Hf) as (U1 & U2 & U3 & U4 & U5 & U6).
    destruct (update_seq l s) as [bk' cur' range' nelm'] eqn:Es. simpl in *. subst. f_equal.
    symmetry. apply list_ext_nth with (d := []); [rewrite map_length, seq_length; congruence|]. intros i Hi. rewrite nth_map_seq by lia. simpl.
    apply U6.
  Qed.
End Par.

(* -- what next_bucket returns ----------------------------------------------------------------- *)
Section Result.
  Variable inc : bool.
  Variables o null n : nat.
  Hypothesis Ho : 0 < o.
  Variable d0 : nat -> nat.

  Lemma any_run ok s d due last : run inc o null n d0 ok s d due last -> exists t, good inc o null t s d due last.
  Proof.
    intros H. assert (HK : keeps inc o null n d0 ok (fun _ _ _ _ => True)) by (constructor; auto).
    destruct (run_good Ho HK H) as (t & G & _). now exists t.
  Qed.

  Definition answer (d : nat -> nat) (due : nat -> bool) (last : nat) (r : option (nat * list nat)) : Prop :=
    match r with
    | None => forall v, due v = false
    | Some (b, L) => L <> [] /\ (forall v, In v L <-> due v = true /\ d v = b) /\
                     (forall v, due v = true -> no_later inc b (d v)) /\ no_later inc last b
    end.
  Lemma good_answer t s d due last fuel r s' : good inc o null t s d due last -> next_bucket inc o fuel d s = Ret r s' -> answer d due last r.
  Proof.
    intros G E. destruct (@next_reach inc o null t Ho d due (fun _ => True)) with (5 := I) (6 := E) as (s0 & H0 & _ & Hr); auto; [apply G|].
    destruct r as [[b L]|]; simpl.
    - destruct Hr as (-> & -> & Hne & ->). split; auto. split; [intros v; exact (due_here Ho v H0)|].
      assert (Hp : P inc o t (cur_num inc o s0) = pos inc o t s0) by (apply cur_num_P; [exact Ho|exact (J_r H0)|exact (J_cur H0)]). split.
      + intros v Hv. apply (no_later_P inc t Ho). rewrite Hp. apply (J_due H0 _ Hv).
      + destruct (filter (fun i => d i =? cur_num inc o s0) (bucket s0 (cur s0))) as [|v L] eqn:Ef; [congruence|].
        assert (Hv : In v (v :: L)) by now left. rewrite <- Ef in Hv. apply (due_here Ho v H0) in Hv as [Hv Hc].
        apply (no_later_P inc t Ho). rewrite <- Hc. now apply (G_due G).
    - destruct Hr as (Hz & ->). intros v. destruct (due v) eqn:Hv; auto. exfalso.
      destruct (J_due H0 _ Hv) as (_ & _ & j & _ & Hin). pose proof (bucket_le_nelm j H0) as Hl. destruct (bucket s0 j); simpl in *; [tauto|lia].
  Qed.
  Lemma good_ends t s d due last : good inc o null t s d due last -> exists fuel r s', next_bucket inc o fuel d s = Ret r s'.
  Proof. intros G. exact (@ends_all inc o null t Ho d due (S (nelm s)) s (G_inv G) (Nat.lt_succ_diag_r _)). Qed.

  Lemma K_nodup ok K s d due last fuel b L s' : keeps inc o null n d0 ok K ->
    (forall t s d due, K t s d due -> forall j, NoDup (bucket s j)) ->
    run inc o null n d0 ok s d due last -> next_bucket inc o fuel d s = Ret (Some (b, L)) s' -> NoDup L.
  Proof.
    intros HK Hnd H E. destruct (run_good Ho HK H) as (t & G & HKs).
    destruct (next_K Ho HK fuel (G_inv G) HKs E) as (s0 & _ & HK0 & _ & -> & _). apply NoDup_filter'. eapply Hnd, HK0.
  Qed.
End Result.

Section Drain.
  Variable inc : bool.
  Variables o null n : nat.
  Hypothesis Ho : 0 < o.
  Variable d0 : nat -> nat.
  Notation run := (run inc o null n d0 (fun _ => requeue)).

  Lemma filter_split_perm (p q : nat -> bool) U :
    Permutation (filter (fun v => p v && q v) U ++ filter (fun v => p v && negb (q v)) U) (filter p U).
  Proof.
    induction U as [|x U IH]; simpl; auto. destruct (p x), (q x); simpl; auto. rewrite <- Permutation_middle. now constructor.
  Qed.
  Lemma next_nodup s d due last fuel b L s' : run s d due last -> next_bucket inc o fuel d s = Ret (Some (b, L)) s' -> NoDup L.
  Proof. apply K_nodup with (K := K2 inc o); auto; [now apply K2_keeps|]. intros t s1 d1 due1 [A _]. exact A. Qed.

  Lemma drain_exists N : forall s d due last U, run s d due last -> (forall v, due v = true -> In v U) ->
    length (filter due U) < N -> exists out, drains inc o d s out.
  Proof.
    induction N as [|N IH]; intros s d due last U Hr HU HN; [lia|].
    destruct (any_run Ho Hr) as (t & G). destruct (good_ends Ho G) as (fuel & r & s' & E). destruct r as [[b L]|]; [|exists []; econstructor; eauto].
    pose proof (good_answer Ho d0 fuel G E) as (Hne & HL & Hfirst & _). destruct (IH s' d (fun v => due v && negb (mem v L)) b U) as (out & Hout).
    - econstructor; eauto.
    - intros v Hv. apply andb_prop in Hv as [Hv _]. auto.
    - assert (Hp := Permutation_length (filter_split_perm due (fun v => mem v L) U)). rewrite app_length in Hp.
      destruct L as [|x L]; [congruence|]. assert (Hx : In x (x :: L)) by now left. apply HL in Hx as [Hx _].
      assert (Hin : In x (filter (fun v => due v && mem v (x :: L)) U)).
      { apply filter_In. split; auto. rewrite Hx. simpl. now rewrite Nat.eqb_refl. }
      destruct (filter (fun v => due v && mem v (x :: L)) U); [destruct Hin|]. simpl in *. lia.
    - exists ((b, L) :: out). econstructor; eauto.
  Qed.
  Lemma drain_out d s out : drains inc o d s out -> forall due last U, run s d due last -> (forall v, due v = true -> In v U) -> NoDup U ->
    Permutation (concat (map snd out)) (filter due U) /\
    (forall b L, In (b, L) out -> L <> [] /\ forall v, In v L -> due v = true /\ d v = b) /\ StronglySorted (earlier inc) (map fst out).
  Proof.
    induction 1 as [s fuel s' E|s fuel b L s' out E Hd IH]; intros due last U Hr HU Hnd.
    - destruct (any_run Ho Hr) as (t & G). pose proof (good_answer Ho d0 fuel G E) as Ha. simpl in Ha. split; [|split].
      + simpl. rewrite filter_none; auto.
      + intros b L [].
      + constructor.
    - destruct (any_run Ho Hr) as (t & G). pose proof (good_answer Ho d0 fuel G E) as (Hne & HL & Hfirst & _).
      pose proof (next_nodup fuel Hr E) as HnL.
      destruct (IH (fun v => due v && negb (mem v L)) b U) as (A & B & C); auto; [econstructor; eauto|intros v Hv; apply andb_prop in Hv as [Hv _]; auto|].
      split; [|split].
      + simpl. rewrite A, <- (filter_split_perm due (fun v => mem v L) U). apply Permutation_app_tail.
        apply NoDup_Permutation; [auto|now apply NoDup_filter'|]. intros v. rewrite filter_In, andb_true_iff, mem_In. split; [|tauto].
        intros Hv. apply HL in Hv as Hv'. split; [apply HU; tauto|tauto].
      + intros b' L' [Eq|Hin]; [injection Eq as <- <-; split; auto; apply HL|]. destruct (B _ _ Hin) as [B1 B2]. split; auto.
        intros v Hv. apply B2 in Hv as [Hv ?]. apply andb_prop in Hv as [Hv _]. auto.
      + simpl. constructor; auto. apply Forall_forall. intros b' Hb'. apply in_map_iff in Hb' as ([b'' L'] & <- & Hin). simpl.
        destruct (B _ _ Hin) as [B1 B2]. destruct L' as [|v L']; [congruence|]. destruct (B2 v ltac:(now left)) as [Hv <-].
        apply andb_prop in Hv as [Hv Hm]. apply Bool.negb_true_iff in Hm. specialize (Hfirst v Hv).
        assert (d v <> b). { intros Eb. assert (In v L) as Hin' by (apply HL; auto). apply mem_In in Hin'. congruence. }
        unfold no_later, earlier in *. destruct inc; lia.
  Qed.
End Drain.
