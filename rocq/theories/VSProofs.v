(* Proofs about the vertex subset model. *)
From Verif Require Import Base ListUtil VSModel VSSpec.

Lemma NoDup_fst {A B} (l : list (A * B)) : NoDup (map fst l) -> NoDup l.
Proof. apply NoDup_map_inv. Qed.

Lemma fst_inj {A B} (l : list (A * B)) v x y : NoDup (map fst l) -> In (v, x) l -> In (v, y) l -> x = y.
Proof.
  induction l as [|[a b] l IH]; simpl; [easy|]. intros H. inversion H as [|? ? H1 H2]; subst.
  intros [E1|E1] [E2|E2].
  - congruence.
  - injection E1 as -> ->. exfalso. apply H1. apply in_map_iff. now exists (v, y).
  - injection E2 as -> ->. exfalso. apply H1. apply in_map_iff. now exists (v, x).
  - eauto.
Qed.

Section P.
  Variable A : Type.
  Variable dflt : A.
  Notation vset := (vset A).

  Lemma stored_nth (d : list (bool * A)) v x : stored d v x <-> v < length d /\ nth v d (false, dflt) = (true, x).
  Proof.
    unfold stored. split.
    - intros H. assert (v < length d) by (apply nth_error_Some; congruence). split; auto.
      now apply nth_error_nth.
    - intros [H1 H2]. rewrite <- H2. now apply nth_error_nth'.
  Qed.

  Lemma In_pack (d : list (bool * A)) i v x :
    In (v, x) (pack_index_and_data i d) <-> i <= v /\ stored d (v - i) x.
  Proof.
    unfold stored. revert i; induction d as [|[b y] d IH]; intros i.
    - simpl. split; [easy|]. intros [_ H]. destruct (v - i); discriminate.
    - assert (E : (i <= v /\ nth_error ((b, y) :: d) (v - i) = Some (true, x))
                <-> (v = i /\ b = true /\ y = x) \/ (S i <= v /\ nth_error d (v - S i) = Some (true, x))).
      { split.
        - intros [H1 H2]. destruct (Nat.eq_dec v i) as [->|Hn].
          + rewrite Nat.sub_diag in H2. simpl in H2. left. repeat split; congruence.
          + right. replace (v - i) with (S (v - S i)) in H2 by lia. split; [lia|exact H2].
        - intros [(-> & -> & ->)|[H1 H2]].
          + rewrite Nat.sub_diag. auto.
          + split; [lia|]. replace (v - i) with (S (v - S i)) by lia. exact H2. }
      rewrite E. simpl pack_index_and_data. destruct b.
      + simpl. rewrite IH. split; intros [H|H]; auto.
        * injection H as -> ->. auto.
        * destruct H as (-> & _ & ->). auto.
      + rewrite IH. split; auto. intros [(_ & H & _)|H]; [discriminate|auto].
  Qed.

  Lemma NoDup_pack (d : list (bool * A)) i : NoDup (map fst (pack_index_and_data i d)).
  Proof.
    revert i; induction d as [|[b y] d IH]; intros i; simpl; [constructor|].
    destruct b; auto. simpl. constructor; auto.
    rewrite in_map_iff. intros ([v x] & E & H). simpl in E. subst. apply In_pack in H. lia.
  Qed.

  Lemma count_true_pack (d : list (bool * A)) i : count_true d = length (pack_index_and_data i d).
  Proof. revert i; induction d as [|[[|] y] d IH]; intros i; simpl; auto. Qed.

  (* dense array d of length n holds exactly l *)
  Definition dOK (n : nat) (d : list (bool * A)) (l : list (nat * A)) : Prop :=
    length d = n /\ forall v x, stored d v x <-> In (v, x) l.

  Lemma pack_perm n d l : subset_of n l -> dOK n d l -> Permutation (pack_index_and_data 0 d) l.
  Proof.
    intros [H1 H2] [H3 H4]. apply NoDup_Permutation.
    - apply NoDup_fst, NoDup_pack.
    - now apply NoDup_fst.
    - intros [v x]. rewrite In_pack, Nat.sub_0_r, H4. split; [easy|]. split; [lia|auto].
  Qed.

  Lemma write_all_length l d : length (fold_left (@write_true A) l d) = length d.
  Proof. revert d; induction l; intros; simpl; auto. rewrite IHl. apply length_lset. Qed.

  Lemma write_all l : forall d, NoDup (map fst l) -> Forall (fun e => fst e < length d) l ->
    (forall e, In e l -> fst (nth (fst e) d (false, dflt)) = false) ->
    forall v x, stored (fold_left (@write_true A) l d) v x <-> stored d v x \/ In (v, x) l.
  Proof.
    induction l as [|[u y] l IH]; intros d Hnd Hlt Hf v x; simpl; [tauto|].
    inversion Hnd as [|? ? Hn1 Hn2]; subst. inversion Hlt as [|? ? Hl1 Hl2]; subst.
    assert (Hne : forall e, In e l -> fst e <> u).
    { intros e He E. apply Hn1. rewrite in_map_iff. eauto. }
    rewrite IH; auto.
    - unfold stored, write_true. simpl.
      destruct (Nat.eq_dec v u) as [->|Hvu].
      + rewrite nth_error_lset_same by auto. split.
        * intros [E|E]; [injection E as ->; auto|auto].
        * intros [E|[E|E]]; auto.
          -- specialize (Hf (u, y) (or_introl eq_refl)). simpl in Hf.
             apply nth_error_nth with (d := (false, dflt)) in E. rewrite E in Hf. discriminate.
          -- injection E as ->. auto.
      + rewrite nth_error_lset_other by auto. split; [tauto|]. intros [E|[E|E]]; auto. injection E as -> ->. congruence.
    - unfold write_true. rewrite length_lset. auto.
    - intros e He. unfold write_true. simpl. rewrite nth_lset_other.
      + apply Hf. now right.
      + intros E. apply (Hne e He). auto.
  Qed.

  Record Inv (n : nat) (V : vset) (l : list (nat * A)) : Prop := {
    i_n : vn V = n;
    i_m : vm V = length l;
    i_sub : subset_of n l;
    i_s : vs V = [] \/ Permutation (vs V) l;
    i_d : vd V = [] \/ dOK n (vd V) l;
    i_dd : isDense V = true -> dOK n (vd V) l;
    i_ss : isDense V = false -> Permutation (vs V) l }.

  Lemma repeat_none n v x : ~ stored (repeat (false, dflt) n) v x.
  Proof. unfold stored. intros H. apply nth_error_In in H. apply repeat_spec in H. discriminate. Qed.

  Lemma dOK_build n s l : subset_of n l -> Permutation s l ->
    dOK n (fold_left (@write_true A) (firstn (length l) s) (repeat (false, dflt) n)) l.
  Proof.
    intros [H1 H2] Hp. rewrite firstn_all2 by (rewrite (Permutation_length Hp); lia).
    split; [now rewrite write_all_length, repeat_length|].
    intros v x. rewrite write_all.
    - pose proof (@repeat_none n v x). split.
      + intros [H0|H0]; [contradiction|]. now apply (Permutation_in _ Hp).
      + intros H0. right. apply Permutation_in with l; auto. now apply Permutation_sym.
    - apply Permutation_NoDup with (map fst l); auto. apply Permutation_map, Permutation_sym, Hp.
    - rewrite repeat_length. apply Forall_forall. intros e He. rewrite Forall_forall in H2. apply H2.
      now apply (Permutation_in _ Hp).
    - intros e _. destruct (nth_in_or_default (fst e) (repeat (false, dflt) n) (false, dflt)) as [Hi| ->]; auto.
      apply repeat_spec in Hi. now rewrite Hi.
  Qed.

  Lemma toDense_inv n V l : Inv n V l -> Inv n (toDense dflt V) l.
  Proof.
    intros [Hn Hm Hs H1 H2 H3 H4].
    assert (Hd : dOK n (vd (toDense dflt V)) l).
    { unfold toDense; simpl. rewrite Hn, Hm. destruct (Nat.eqb_spec (length (vd V)) 0) as [E|E].
      - destruct (isDense V) eqn:Ed.
        + destruct (H3 eq_refl) as [E0 _]. assert (Hn0 : n = 0) by congruence. clear Hn H2 H3 E0. subst n.
          assert (l = []) as ->. { destruct Hs as [_ Hf]. destruct l as [|e ?]; auto. inversion Hf; lia. }
          simpl. split; [reflexivity|]. intros v x. unfold stored. destruct v; simpl; split; try easy; discriminate.
        + apply dOK_build; auto.
      - destruct H2 as [E0|H2]; auto. rewrite E0 in E. easy. }
    split; unfold toDense in *; simpl in *; auto. discriminate.
  Qed.

  Lemma toSparse_inv n V l : Inv n V l -> exists V', toSparse V = Some V' /\ Inv n V' l /\ isDense V' = false.
  Proof.
    intros [Hn Hm Hs H1 H2 H3 H4]. unfold toSparse. rewrite Hn, Hm.
    destruct (Nat.eqb_spec (length (vs V)) 0) as [E|E]; simpl.
    - destruct (Nat.ltb_spec 0 (length l)) as [E0|E0].
      + destruct (isDense V) eqn:Ed.
        2:{ rewrite (Permutation_length (H4 eq_refl)) in E. lia. }
        specialize (H3 eq_refl). pose proof (pack_perm Hs H3) as Hp. destruct H3 as [El H3].
        rewrite firstn_all2 by lia. rewrite (Permutation_length Hp), Nat.eqb_refl.
        eexists. split; [reflexivity|]. split; [|reflexivity]. split; simpl; auto. discriminate.
      + assert (l = []) as -> by (destruct l; auto; simpl in *; lia).
        eexists. split; [reflexivity|]. split; [|reflexivity]. split; simpl; auto; try discriminate.
        intros _. apply length_zero_iff_nil in E. rewrite E. constructor.
    - eexists. split; [reflexivity|]. split; [|reflexivity]. split; simpl; auto; try discriminate.
      intros _. destruct H1 as [E0|H1]; auto. rewrite E0 in E. easy.
  Qed.

  Lemma converts_inv h : forall n V l, Inv n V l -> exists V', converts dflt h V = Some V' /\ Inv n V' l.
  Proof.
    unfold converts. induction h as [|c h IH]; intros n V l HI; simpl; [eauto|].
    destruct c.
    - destruct (toSparse_inv HI) as (V' & -> & HI' & _). auto.
    - apply IH. now apply toDense_inv.
  Qed.

  Lemma isIn_stored n V l v : dOK n (vd V) l -> v < n -> (isIn dflt V v = true <-> In v (map fst l)).
  Proof.
    intros [H1 H2] Hv. unfold isIn. rewrite in_map_iff. split.
    - intros H. destruct (nth v (vd V) (false, dflt)) as [b x] eqn:E. simpl in H. subst b.
      exists (v, x). split; auto. apply H2. apply stored_nth. split; auto. lia.
    - intros ([v' x] & E & H). simpl in E. subst v'. apply H2, stored_nth in H. destruct H as [_ ->]. auto.
  Qed.
  Lemma ithData_stored n V l v x : dOK n (vd V) l -> In (v, x) l -> ithData dflt V v = x.
  Proof. intros [H1 H2] H. apply H2, stored_nth in H. unfold ithData. destruct H as [_ ->]. auto. Qed.

  Lemma calls_perm n V l : Inv n V l -> Permutation (vertexMap_calls dflt V) l.
  Proof.
    intros [Hn Hm Hs H1 H2 H3 H4]. unfold vertexMap_calls. destruct (isDense V).
    - specialize (H3 eq_refl). destruct Hs as [Hs1 Hs2]. rewrite Hn. apply NoDup_Permutation.
      + assert (G : forall k i, NoDup (flat_map (fun i => if isIn dflt V i then [(i, ithData dflt V i)] else []) (seq i k))
                    /\ forall e, In e (flat_map (fun i => if isIn dflt V i then [(i, ithData dflt V i)] else []) (seq i k)) -> i <= fst e).
        { induction k as [|k IH]; intros i; simpl; [split; [constructor|easy]|].
          destruct (IH (S i)) as [G1 G2]. destruct (isIn dflt V i); simpl.
          - split.
            + constructor; auto. intros H. apply G2 in H. simpl in H. lia.
            + intros e [<-|H]; auto. apply G2 in H. lia.
          - split; auto. intros e H. apply G2 in H. lia. }
        apply G.
      + now apply NoDup_fst.
      + intros [v x]. rewrite in_flat_map. split.
        * intros (i & Hi & H). apply in_seq in Hi. destruct (isIn dflt V i) eqn:E; [|easy].
          destruct H as [H|[]]. injection H as -> Hx.
          apply isIn_stored with (n := n) (l := l) in E; auto; [|lia]. apply in_map_iff in E as ([v' y] & Ev & Hy).
          simpl in Ev. subst v'. rewrite (@ithData_stored n V l v y H3 Hy) in Hx. now subst.
        * intros H. assert (Hv : v < n). { rewrite Forall_forall in Hs2. apply (Hs2 (v, x)); auto. }
          exists v. split; [apply in_seq; lia|].
          rewrite (proj2 (@isIn_stored n V l v H3 Hv)) by (apply in_map_iff; exists (v, x); auto).
          left. now rewrite (@ithData_stored n V l v x H3 H).
    - specialize (H4 eq_refl). rewrite Hm, <- (Permutation_length H4), map_nth_seq. exact H4.
  Qed.

  Lemma shows_inv n V l : Inv n V l -> shows dflt n V l.
  Proof.
    intros HI. split; [apply HI|]. split; [apply HI|]. split; [exact (calls_perm HI)|].
    intros Hd v Hv. pose proof (i_dd HI Hd) as H. split.
    - now apply isIn_stored with n.
    - intros x Hx. eapply ithData_stored; eauto.
  Qed.

  Lemma sparse_inv n l : subset_of n l -> Inv n (vs_sparse n l) l.
  Proof. intros H. split; simpl; auto. discriminate. Qed.
  Lemma empty_inv n : Inv n (vs_empty n) [].
  Proof. split; simpl; auto; try discriminate. split; constructor. Qed.
  Lemma dense_inv n d : length d = n -> Inv n (vs_dense n d) (pack_index_and_data 0 d).
  Proof.
    intros Hl.
    assert (Hd : dOK n d (pack_index_and_data 0 d)).
    { split; auto. intros v x. rewrite In_pack, Nat.sub_0_r. split; [split; auto; lia|tauto]. }
    assert (Hs : subset_of n (pack_index_and_data 0 d)).
    { split; [apply NoDup_pack|]. apply Forall_forall. intros [v x] H. apply In_pack in H as [_ H].
      apply stored_nth in H. simpl. rewrite Nat.sub_0_r in H. lia. }
    split; simpl; auto; try discriminate. apply count_true_pack.
  Qed.
End P.

Lemma built_inv A (dflt : A) n (V : vset A) l : built n V l -> Inv n V l.
Proof.
  intros [Hs [[-> ->]|[->|(d & Hl & Hd & HV)]]].
  - apply empty_inv.
  - now apply sparse_inv.
  - assert (Hok : dOK n d l) by (split; auto).
    assert (Hc : count_true d = length l).
    { rewrite (count_true_pack d 0). now apply Permutation_length, (pack_perm Hs Hok). }
    assert (V = vs_dense_m n (length l) d) as -> by (destruct HV as [->| ->]; auto; unfold vs_dense; now rewrite Hc).
    split; simpl; auto. discriminate.
Qed.

