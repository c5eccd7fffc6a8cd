(* Adjacency lists in byte-coded form: encode, decode, map_reduce, pack. *)
From Verif Require Import Base CodecModel CodecProofs CodecSpec.
From Coq Require Import NArith ZArith Lia Sorted.
Local Open Scope N_scope.

(* length of a varint *)
Lemma vb_length f : forall v k, v < 2 ^ (7 * N.of_nat f) ->
  ((length (vb f v) <= k)%nat <-> v < 2 ^ (7 * N.of_nat k)).
Proof.
  induction f as [|f IH]; intros v k Hv.
  - assert (v = 0) as -> by (simpl in Hv; lia). simpl. split; intros; [|lia].
    apply N.neq_0_lt_0, N.pow_nonzero. discriminate.
  - cbn [vb]. destruct (N.eqb_spec v 0) as [->|Hne].
    + split; intros; [|simpl; lia]. apply N.neq_0_lt_0, N.pow_nonzero. discriminate.
    + cbn [length]. destruct k as [|k].
      * split; intros H; [lia|]. simpl in H. lia.
      * rewrite shiftr7. rewrite <- Nat.succ_le_mono. rewrite IH by now apply div128_lt.
        replace (7 * N.of_nat (S k)) with (7 + 7 * N.of_nat k) by lia. rewrite N.pow_add_r.
        change (2 ^ 7) with 128. split; intros H.
        -- pose proof (N.div_mod v 128). pose proof (N.mod_lt v 128). nia.
        -- apply N.div_lt_upper_bound; [discriminate|exact H].
Qed.
Lemma vlen_iff v k : (length (vbytes v) <= k)%nat <-> v < 2 ^ (7 * N.of_nat k).
Proof. apply vb_length, size_nat_lt. Qed.
Lemma vlen_lt v : v < 2 ^ (7 * N.of_nat (length (vbytes v))).
Proof. now apply vlen_iff. Qed.
Lemma vlen_0 v : length (vbytes v) = O -> v = 0.
Proof. intros H. pose proof (vlen_lt v) as Hv. rewrite H in Hv. simpl in Hv. lia. Qed.
Lemma vbytes_0 : vbytes 0 = [].
Proof. reflexivity. Qed.

Lemma pow7_ge k : (0 < k)%nat -> 128 <= 2 ^ (7 * N.of_nat k).
Proof. intros H. change 128 with (2 ^ 7). apply N.pow_le_mono_r; lia. Qed.
Lemma pow7_pos k : 1 <= 2 ^ (7 * N.of_nat k).
Proof. change 1 with (2 ^ 0). apply N.pow_le_mono_r; lia. Qed.
Lemma pow7_add j k : 2 ^ (7 * N.of_nat (j + k)) = 2 ^ (7 * N.of_nat j) * 2 ^ (7 * N.of_nat k).
Proof. rewrite <- N.pow_add_r. f_equal. lia. Qed.

Lemma vlen_add a b : (length (vbytes (a + b)) <= length (vbytes a) + length (vbytes b))%nat.
Proof.
  destruct (Nat.eq_dec (length (vbytes a)) 0) as [Ha|Ha].
  { apply vlen_0 in Ha. subst. simpl. lia. }
  destruct (Nat.eq_dec (length (vbytes b)) 0) as [Hb|Hb].
  { apply vlen_0 in Hb. subst. rewrite N.add_0_r. lia. }
  apply vlen_iff. rewrite pow7_add. pose proof (vlen_lt a). pose proof (vlen_lt b).
  pose proof (@pow7_ge (length (vbytes a))). pose proof (@pow7_ge (length (vbytes b))). nia.
Qed.

Lemma slen_add d g : (Z.abs d < 4294967296)%Z -> (Z.abs (d + Z.of_N g) < 4294967296)%Z ->
  (length (sbytes (d + Z.of_N g)) <= length (sbytes d) + length (vbytes g))%nat.
Proof.
  intros H1 H2. unfold sbytes. cbn [length].
  destruct (Nat.eq_dec (length (vbytes g)) 0) as [Hg|Hg].
  { apply vlen_0 in Hg. subst. rewrite Z.add_0_r. lia. }
  rewrite !z32_small by lia. rewrite !shiftr6.
  apply le_n_S. apply vlen_iff. rewrite pow7_add.
  pose proof (vlen_lt (Z.to_N (Z.abs d) / 64)) as Hd. pose proof (vlen_lt g) as Hgl.
  set (k1 := length (vbytes (Z.to_N (Z.abs d) / 64))) in *.
  pose proof (pow7_pos k1). pose proof (@pow7_ge (length (vbytes g))).
  set (A := 2 ^ (7 * N.of_nat k1)) in *. set (B := 2 ^ (7 * N.of_nat (length (vbytes g)))) in *.
  pose proof (N.div_mod (Z.to_N (Z.abs d)) 64). pose proof (N.mod_lt (Z.to_N (Z.abs d)) 64).
  apply N.div_lt_upper_bound; [discriminate|].
  assert (Z.to_N (Z.abs (d + Z.of_N g)) <= Z.to_N (Z.abs d) + g) by lia. nia.
Qed.

(* -- encoding of a list ------------------------------------------------ *)
Fixpoint encRest (w : wty) (prev : N) (l : list edge) : list N :=
  match l with
  | [] => []
  | (v, x) :: l' => vbytes (v - prev) ++ wbytes w x ++ encRest w v l'
  end.
Definition enc (w : wty) (src : N) (l : list edge) : list N :=
  match l with
  | [] => []
  | (v, x) :: l' => sbytes (Z.of_N v - Z.of_N src) ++ wbytes w x ++ encRest w v l'
  end.

(* increasing above prev *)
Fixpoint okRest (w : wty) (prev : N) (l : list edge) : Prop :=
  match l with
  | [] => True
  | (v, x) :: l' => prev < v /\ v < two32 /\ valid_w w x /\ okRest w v l'
  end.
Definition ok (w : wty) (l : list edge) : Prop :=
  match l with
  | [] => True
  | (v, x) :: l' => v < two32 /\ valid_w w x /\ okRest w v l'
  end.

Lemma diff32 v prev : prev < v -> v < two32 -> z32 (Z.of_N v - Z.of_N prev) = v - prev.
Proof. unfold two32. intros. rewrite z32_small by lia. lia. Qed.
Lemma add32 v prev : prev < v -> v < two32 -> (prev + (v - prev)) mod two32 = v.
Proof. intros. rewrite N.mod_small; lia. Qed.

Lemma compressRest_writes w l : forall m off prev, okRest w prev l ->
  compressRest w m off prev l = Some (wr m off (encRest w prev l), (off + length (encRest w prev l))%nat).
Proof.
  induction l as [|[v x] l IH]; intros m off prev H.
  - simpl. now rewrite Nat.add_0_r.
  - destruct H as (H1 & H2 & H3 & H4). cbn [compressRest encRest]. cbv zeta.
    rewrite diff32 by auto. rewrite compressEdge_writes, compressWeight_writes, IH by auto.
    rewrite !wr_app, !app_length. f_equal. f_equal. lia.
Qed.
Lemma compressSet_writes w l m off src : ok w l ->
  sequentialCompressEdgeSet w m off src l = Some (wr m off (enc w src l), (off + length (enc w src l))%nat).
Proof.
  destruct l as [|[v x] l]; intros H.
  - simpl. now rewrite Nat.add_0_r.
  - destruct H as (H2 & H3 & H4). cbn [sequentialCompressEdgeSet enc].
    rewrite compressFirstEdge_writes, compressWeight_writes, compressRest_writes by auto.
    rewrite !wr_app, !app_length. f_equal. f_equal. lia.
Qed.

Lemma eatEdge_gap m a v prev : prev < v -> v < two32 -> holds m a (vbytes (v - prev)) ->
  eatEdge m a = Some (v - prev, (a + length (vbytes (v - prev)))%nat).
Proof. intros. apply eatEdge_reads; auto; lia. Qed.

(* -- decode -------------------------------------------------------------- *)
Section Decode.
  Variable w : wty.
  Variable St : Type.
  Variable t : St -> N -> Z -> nat -> St * bool.

  Lemma decodeRest_run l : forall m a ngh i s, okRest w ngh l -> holds m a (encRest w ngh l) ->
    exists a', decodeRest w t m a ngh i (length l) s = Some (visit t i l s, a').
  Proof.
    induction l as [|[v x] l IH]; intros m a ngh i s Hok Hh.
    - simpl. eauto.
    - destruct Hok as (H1 & H2 & H3 & H4). cbn [encRest] in Hh.
      apply holds_app in Hh as [Hh1 Hh]. apply holds_app in Hh as [Hh2 Hh3].
      cbn [decodeRest length visit]. rewrite (eatEdge_gap H1 H2 Hh1). cbv zeta.
      rewrite add32 by auto. rewrite (@eatWeight_reads w _ _ _ H3 Hh2).
      destruct (t s v x i) as [s' [|]]; eauto.
  Qed.

  Lemma decode_run l m a src s : src < two32 -> ok w l -> holds m a (enc w src l) ->
    exists a', decode w t m a src (length l) s = Some (visit t 0 l s, a').
  Proof.
    intros Hs. destruct l as [|[v x] l]; intros Hok Hh.
    - simpl. eauto.
    - destruct Hok as (H2 & H3 & H4). cbn [enc] in Hh.
      apply holds_app in Hh as [Hh1 Hh]. apply holds_app in Hh as [Hh2 Hh3].
      cbn [decode length visit]. rewrite (eatFirstEdge_reads Hs H2 Hh1).
      rewrite (@eatWeight_reads w _ _ _ H3 Hh2).
      destruct (t s v x 0%nat) as [s' [|]]; eauto. now apply decodeRest_run.
  Qed.
End Decode.

Section MapReduce.
  Variable w : wty.
  Variable E : Type.
  Variable f : N -> Z -> E.
  Variable reduce : E -> E -> E.
  Variable identity : E.

  Lemma mapReduceRest_run l : forall m a ngh cur, okRest w ngh l -> holds m a (encRest w ngh l) ->
    mapReduceRest w f reduce m a ngh (length l) cur
    = Some (fold_left (fun acc e => reduce acc (f (fst e) (snd e))) l cur).
  Proof.
    induction l as [|[v x] l IH]; intros m a ngh cur Hok Hh.
    - reflexivity.
    - destruct Hok as (H1 & H2 & H3 & H4). cbn [encRest] in Hh.
      apply holds_app in Hh as [Hh1 Hh]. apply holds_app in Hh as [Hh2 Hh3].
      cbn [mapReduceRest length fold_left]. rewrite (eatEdge_gap H1 H2 Hh1). cbv zeta.
      rewrite add32 by auto. rewrite (@eatWeight_reads w _ _ _ H3 Hh2). apply IH; auto.
  Qed.
  Lemma map_reduce_run l m a src : src < two32 -> ok w l -> holds m a (enc w src l) ->
    map_reduce w f reduce identity m a src (length l)
    = Some (match l with
            | [] => identity
            | e :: l' => fold_left (fun acc e => reduce acc (f (fst e) (snd e))) l' (f (fst e) (snd e))
            end).
  Proof.
    intros Hs. destruct l as [|[v x] l]; intros Hok Hh.
    - reflexivity.
    - destruct Hok as (H2 & H3 & H4). cbn [enc] in Hh.
      apply holds_app in Hh as [Hh1 Hh]. apply holds_app in Hh as [Hh2 Hh3].
      cbn [map_reduce length]. rewrite (eatFirstEdge_reads Hs H2 Hh1).
      rewrite (@eatWeight_reads w _ _ _ H3 Hh2). now apply mapReduceRest_run.
  Qed.
End MapReduce.

(* -- get_ith_neighbor ----------------------------------------------------- *)
Lemma skipEdges_run w l : forall m a ngh x k, (k <= length l)%nat -> okRest w ngh l -> holds m a (encRest w ngh l) ->
  skipEdges w m a ngh x k = nth_error ((ngh, x) :: l) k.
Proof.
  induction l as [|[v y] l IH]; intros m a ngh x k Hk Hok Hh.
  - simpl in Hk. assert (k = O) as -> by lia. reflexivity.
  - destruct k as [|k]; [reflexivity|].
    destruct Hok as (H1 & H2 & H3 & H4). cbn [encRest] in Hh.
    apply holds_app in Hh as [Hh1 Hh]. apply holds_app in Hh as [Hh2 Hh3].
    cbn [skipEdges]. rewrite (eatEdge_gap H1 H2 Hh1).
    rewrite (@eatWeight_reads w _ _ _ H3 Hh2). rewrite add32 by auto.
    simpl in Hk. rewrite IH; auto; lia.
Qed.
Lemma get_ith_run w l m a src i : src < two32 -> ok w l -> holds m a (enc w src l) -> (i < length l)%nat ->
  get_ith_neighbor w m a src i = nth_error l (i - 1).
Proof.
  intros Hs. destruct l as [|[v x] l]; intros Hok Hh Hi; [simpl in Hi; lia|].
  destruct Hok as (H2 & H3 & H4). cbn [enc] in Hh.
  apply holds_app in Hh as [Hh1 Hh]. apply holds_app in Hh as [Hh2 Hh3].
  unfold get_ith_neighbor. rewrite (eatFirstEdge_reads Hs H2 Hh1).
  rewrite (@eatWeight_reads w _ _ _ H3 Hh2). simpl in Hi. apply skipEdges_run; auto. lia.
Qed.

(* -- pack ------------------------------------------------------------------ *)
Lemma okRest_weaken w l : forall p q, q <= p -> okRest w p l -> okRest w q l.
Proof. destruct l as [|[v x] l]; intros p q H; simpl; auto. intros (?&?&?&?). repeat split; auto. lia. Qed.
Lemma okRest_keep w pred l : forall p, okRest w p l -> okRest w p (filter (fun e => pred (fst e) (snd e)) l).
Proof.
  induction l as [|[v x] l IH]; intros p; simpl; auto. intros (H1&H2&H3&H4).
  destruct (pred v x); simpl.
  - repeat split; auto.
  - eapply okRest_weaken; [|apply IH; eauto]. lia.
Qed.
Lemma okRest_ok w l p : okRest w p l -> ok w l.
Proof. destruct l as [|[v x] l]; simpl; tauto. Qed.
Lemma ok_keep w pred l : ok w l -> ok w (filter (fun e => pred (fst e) (snd e)) l).
Proof.
  destruct l as [|[v x] l]; simpl; auto. intros (H2&H3&H4).
  destruct (pred v x); simpl.
  - repeat split; auto. now apply okRest_keep.
  - eapply okRest_ok, okRest_keep; eauto.
Qed.
Section Pack.
  Variable w : wty.
  Variable pred : N -> Z -> bool.
  Variable src : N.
  Hypothesis Hsrc : src < two32.
  Let keep (l : list edge) := filter (fun e => pred (fst e) (snd e)) l.

  Lemma packWrite_rest m off last v x nd : last < v -> v < two32 ->
    packWrite w src m off last v x (S nd)
    = Some (wr m off (vbytes (v - last) ++ wbytes w x),
            (off + length (vbytes (v - last) ++ wbytes w x))%nat).
  Proof.
    intros H1 H2. unfold packWrite. rewrite diff32 by auto.
    rewrite compressEdge_writes, compressWeight_writes, wr_app, app_length. f_equal. f_equal. lia.
  Qed.
  Lemma packWrite_first m off last v x :
    packWrite w src m off last v x 0
    = Some (wr m off (sbytes (Z.of_N v - Z.of_N src) ++ wbytes w x),
            (off + length (sbytes (Z.of_N v - Z.of_N src) ++ wbytes w x))%nat).
  Proof.
    unfold packWrite. rewrite compressFirstEdge_writes, compressWeight_writes, wr_app, app_length.
    f_equal. f_equal. lia.
  Qed.

  Lemma packRest_some l : forall m finger off ngh last nd,
    okRest w ngh l -> holds m finger (encRest w ngh l) -> last <= ngh -> ngh < two32 ->
    (off + length (vbytes (ngh - last)) <= finger)%nat ->
    packRest w pred src m finger off ngh last (S nd) (length l)
    = Some (wr m off (encRest w last (keep l)), (S nd + length (keep l))%nat) /\
    (off + length (encRest w last (keep l)) <= finger + length (encRest w ngh l))%nat.
  Proof.
    induction l as [|[v x] l IH]; intros m finger off ngh last nd Hok Hh Hln Hn Hoff.
    - simpl. rewrite Nat.add_0_r. split; auto. lia.
    - destruct Hok as (H1 & H2 & H3 & H4). cbn [encRest] in Hh.
      apply holds_app in Hh as [Hh1 Hh]. apply holds_app in Hh as [Hh2 Hh3].
      cbn [packRest length]. rewrite (eatEdge_gap H1 H2 Hh1). cbv zeta.
      rewrite add32 by auto. rewrite (@eatWeight_reads w _ _ _ H3 Hh2).
      pose proof (vlen_add (ngh - last) (v - ngh)) as Hlen.
      replace (ngh - last + (v - ngh)) with (v - last) in Hlen by lia.
      unfold keep. cbn [filter fst snd]. destruct (pred v x).
      + rewrite packWrite_rest by lia.
        assert (Hend : (off + length (vbytes (v - last) ++ wbytes w x)
                        <= finger + length (vbytes (v - ngh)) + length (wbytes w x))%nat).
        { rewrite app_length. lia. }
        edestruct (IH (wr m off (vbytes (v - last) ++ wbytes w x))
            (finger + length (vbytes (v - ngh)) + length (wbytes w x))%nat
            (off + length (vbytes (v - last) ++ wbytes w x))%nat v v (S nd)) as [E L]; auto.
        * apply holds_wr_other; auto.
        * lia.
        * rewrite N.sub_diag. simpl length at 2. lia.
        * rewrite E. split.
          -- f_equal. f_equal.
             ++ cbn [encRest]. now rewrite app_assoc, (wr_app (_ ++ _)).
             ++ cbn [length]. fold (keep l). lia.
          -- cbn [encRest]. fold (keep l). rewrite !app_length in *. lia.
      + edestruct (IH m (finger + length (vbytes (v - ngh)) + length (wbytes w x))%nat off v last nd) as [E L]; auto; try lia.
        rewrite E. split; auto. fold (keep l). cbn [encRest]. rewrite !app_length. lia.
  Qed.

  Lemma packRest_none l : forall m finger off ngh last,
    okRest w ngh l -> holds m finger (encRest w ngh l) -> ngh < two32 ->
    (off + length (sbytes (Z.of_N ngh - Z.of_N src)) <= finger)%nat ->
    packRest w pred src m finger off ngh last 0 (length l)
    = Some (wr m off (enc w src (keep l)), length (keep l)) /\
    (off + length (enc w src (keep l)) <= finger + length (encRest w ngh l))%nat.
  Proof.
    induction l as [|[v x] l IH]; intros m finger off ngh last Hok Hh Hn Hoff.
    - simpl. split; auto. lia.
    - destruct Hok as (H1 & H2 & H3 & H4). cbn [encRest] in Hh.
      apply holds_app in Hh as [Hh1 Hh]. apply holds_app in Hh as [Hh2 Hh3].
      cbn [packRest length]. rewrite (eatEdge_gap H1 H2 Hh1). cbv zeta.
      rewrite add32 by auto. rewrite (@eatWeight_reads w _ _ _ H3 Hh2).
      assert (Hlen : (length (sbytes (Z.of_N v - Z.of_N src)) <=
                length (sbytes (Z.of_N ngh - Z.of_N src)) + length (vbytes (v - ngh)))%nat).
      { unfold two32 in *. replace (Z.of_N v - Z.of_N src)%Z with ((Z.of_N ngh - Z.of_N src) + Z.of_N (v - ngh))%Z by lia.
        apply slen_add; lia. }
      unfold keep. cbn [filter fst snd]. destruct (pred v x).
      + rewrite packWrite_first.
        assert (Hend : (off + length (sbytes (Z.of_N v - Z.of_N src) ++ wbytes w x)
                        <= finger + length (vbytes (v - ngh)) + length (wbytes w x))%nat).
        { rewrite app_length. lia. }
        edestruct (@packRest_some l (wr m off (sbytes (Z.of_N v - Z.of_N src) ++ wbytes w x))
            (finger + length (vbytes (v - ngh)) + length (wbytes w x))%nat
            (off + length (sbytes (Z.of_N v - Z.of_N src) ++ wbytes w x))%nat v v 0) as [E L]; auto.
        * apply holds_wr_other; auto.
        * lia.
        * rewrite N.sub_diag. simpl length at 2. lia.
        * rewrite E. split.
          -- f_equal. f_equal. cbn [enc]. now rewrite app_assoc, (wr_app (_ ++ _)).
          -- cbn [enc encRest]. fold (keep l). rewrite !app_length in *. lia.
      + edestruct (IH m (finger + length (vbytes (v - ngh)) + length (wbytes w x))%nat off v last) as [E L]; auto; try lia.
        rewrite E. split; auto. fold (keep l). cbn [encRest]. rewrite !app_length. lia.
  Qed.

  Lemma pack_run l m a : ok w l -> holds m a (enc w src l) ->
    pack w pred src m a (length l) = Some (wr m a (enc w src (keep l)), length (keep l)) /\
    (length (enc w src (keep l)) <= length (enc w src l))%nat.
  Proof.
    destruct l as [|[v x] l]; intros Hok Hh.
    - simpl. auto.
    - destruct Hok as (H2 & H3 & H4). cbn [enc] in Hh.
      apply holds_app in Hh as [Hh1 Hh]. apply holds_app in Hh as [Hh2 Hh3].
      cbn [pack length]. rewrite (eatFirstEdge_reads Hsrc H2 Hh1).
      rewrite (@eatWeight_reads w _ _ _ H3 Hh2).
      unfold keep. cbn [filter fst snd]. destruct (pred v x).
      + rewrite packWrite_first.
        edestruct (@packRest_some l (wr m a (sbytes (Z.of_N v - Z.of_N src) ++ wbytes w x))
            (a + length (sbytes (Z.of_N v - Z.of_N src)) + length (wbytes w x))%nat
            (a + length (sbytes (Z.of_N v - Z.of_N src) ++ wbytes w x))%nat v v 0) as [E L]; auto.
        * apply holds_wr_other; auto. rewrite app_length. lia.
        * lia.
        * rewrite N.sub_diag, app_length. simpl length at 3. lia.
        * rewrite E. split.
          -- f_equal. f_equal. cbn [enc]. now rewrite app_assoc, (wr_app (_ ++ _)).
          -- cbn [enc]. fold (keep l). rewrite !app_length in *. lia.
      + edestruct (@packRest_none l m
            (a + length (sbytes (Z.of_N v - Z.of_N src)) + length (wbytes w x))%nat a v 0) as [E L]; auto; try lia.
        rewrite E. split; auto. fold (keep l). cbn [enc]. rewrite !app_length. lia.
  Qed.

End Pack.

Lemma okRest_adj w l : forall p, okRest w p l <->
     (Forall (fun e => fst e < two32 /\ valid_w w (snd e)) l /\ StronglySorted N.lt (map fst l)
      /\ Forall (fun x => p < x) (map fst l)).
Proof.
  induction l as [|[v x] l IH]; intros p; simpl.
  - repeat split; auto; constructor.
  - rewrite IH. split.
    + intros (H1 & H2 & H3 & H4 & H5 & H6). repeat split; auto.
      * constructor; auto.
      * constructor; auto. eapply Forall_impl; [|exact H6]. simpl. intros. lia.
    + intros (H1 & H2 & H3). inversion H1; inversion H2; inversion H3; subst. simpl in *. tauto.
Qed.
Lemma ok_adj w l : adj_ok w l <-> ok w l.
Proof.
  unfold adj_ok. destruct l as [|[v x] l]; simpl.
  - split; auto. intros _. split; constructor.
  - rewrite okRest_adj. split.
    + intros (H1 & H2). inversion H1; inversion H2; subst. simpl in *. tauto.
    + intros (H1 & H2 & H3 & H4 & H5). split; constructor; auto.
Qed.

(* -- filter --------------------------------------------------------------- *)
Section Filter.
  Variable w : wty.
  Variable pred : N -> Z -> bool.
  Lemma filterRest_run l : forall m a ngh out, okRest w ngh l -> holds m a (encRest w ngh l) ->
    filterRest w pred m a ngh (length l) out = Some (out ++ filter (fun e => pred (fst e) (snd e)) l).
  Proof.
    induction l as [|[v x] l IH]; intros m a ngh out Hok Hh.
    - simpl. now rewrite app_nil_r.
    - destruct Hok as (H1 & H2 & H3 & H4). cbn [encRest] in Hh.
      apply holds_app in Hh as [Hh1 Hh]. apply holds_app in Hh as [Hh2 Hh3].
      cbn [filterRest length filter fst snd]. rewrite (eatEdge_gap H1 H2 Hh1). cbv zeta.
      rewrite add32 by auto. rewrite (@eatWeight_reads w _ _ _ H3 Hh2). rewrite IH by auto.
      destruct (pred v x); auto. now rewrite <- app_assoc.
  Qed.
  Lemma filter_run l m a src : src < two32 -> ok w l -> holds m a (enc w src l) ->
    filter_out w pred m a src (length l) = Some (filter (fun e => pred (fst e) (snd e)) l).
  Proof.
    intros Hs. destruct l as [|[v x] l]; intros Hok Hh.
    - reflexivity.
    - destruct Hok as (H2 & H3 & H4). cbn [enc] in Hh.
      apply holds_app in Hh as [Hh1 Hh]. apply holds_app in Hh as [Hh2 Hh3].
      cbn [filter_out length filter fst snd]. rewrite (eatFirstEdge_reads Hs H2 Hh1).
      rewrite (@eatWeight_reads w _ _ _ H3 Hh2). rewrite filterRest_run by auto.
      destruct (pred v x); auto.
  Qed.
End Filter.
