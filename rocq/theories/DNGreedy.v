From Coq Require Import Permutation.
From Verif Require Import Base ListUtil VSModel EMModel BKSpec BKProofs KCModel KCSpec KCProofs KCProps DNModel DNSpec DNProofs.

Lemma stores_out s : forall f k, ~ In k (map fst s) -> stores s f k = f k.
Proof.
  induction s as [|[a c] s IH]; intros f k H; auto. change (stores s (fset f a c) k = f k). simpl in H. rewrite IH by tauto. apply fset_other. intros ->. tauto.
Qed.
Lemma stores_in s : forall f k v, NoDup (map fst s) -> In (k, v) s -> stores s f k = v.
Proof.
  induction s as [|[a c] s IH]; intros f k v ND H; [destruct H|]. inversion ND as [|? ? N1 N2]; subst. change (stores s (fset f a c) k = v). destruct H as [H|H].
  - injection H as -> ->. rewrite stores_out by auto. apply fset_same.
  - now apply IH.
Qed.
Lemma stores_from s : forall f k, stores s f k = f k \/ In (k, stores s f k) s.
Proof.
  induction s as [|[a c] s IH]; intros f k; [now left|]. change (stores ((a, c) :: s) f) with (stores s (fset f a c)). destruct (IH (fset f a c) k) as [E|E]; [|right; now right].
  rewrite E. unfold fset. destruct (Nat.eqb_spec k a) as [->|]; [right; now left|now left].
Qed.

Section Charikar.
  Variable n : nat.
  Variable outn : nat -> list nat.
  Hypothesis Hsym : symmetric n outn.
  Hypothesis Hsimple : simple n outn.
  Variable order : list nat.
  Hypothesis HP : Permutation order (seq 0 n).
  Lemma ord_len : length order = n. Proof. rewrite (Permutation_length HP). apply seq_length. Qed.
  Lemma ord_nd : NoDup order. Proof. eapply Permutation_NoDup; [apply Permutation_sym; exact HP|apply seq_NoDup]. Qed.
  Lemma ord_in v : In v order <-> v < n.
  Proof. split; intros H. - eapply Permutation_in in H; [|exact HP]. apply in_seq in H. lia. - eapply Permutation_in; [apply Permutation_sym; exact HP|]. apply in_seq. lia. Qed.
  Lemma in_suffix i v : i <= n -> (In v (skipn i order) <-> exists j, i <= j < n /\ nth j order 0 = v).
  Proof.
    intros Hi. pose proof ord_len as HL. split.
    - intros H. apply (In_nth _ _ 0) in H as (j & Hj & E). rewrite skipn_length in Hj. exists (i + j). split; [lia|].
      rewrite <- E. rewrite <- (firstn_skipn i order) at 1. rewrite app_nth2; rewrite firstn_length_le by lia; [|lia]. f_equal. lia.
    - intros (j & Hj & <-). rewrite <- (firstn_skipn i order) at 1. rewrite app_nth2; rewrite firstn_length_le by lia; [|lia]. apply nth_In. rewrite skipn_length. lia.
  Qed.
  Lemma suffix_cons i : i < n -> skipn i order = nth i order 0 :: skipn (S i) order.
  Proof.
    intros Hi. pose proof ord_len as HL. rewrite <- HL in Hi. clear -Hi. revert i Hi. induction order as [|a l IH]; intros i Hi; [simpl in Hi; lia|].
    destruct i; auto. simpl in Hi. cbn [skipn nth]. apply IH. lia.
  Qed.
  Lemma above_spec a : dens_above n outn order a -> forall i, i < n -> a i = 2 * dg outn (skipn (S i) order) (nth i order 0).
  Proof.
    intros [s1 s2 H1 pos H2] i Hi. pose proof ord_len as HL.
    assert (N1 : NoDup (map fst s1)).
    { eapply Permutation_NoDup; [apply Permutation_map, Permutation_sym, H1|]. rewrite map_map. cbn [fst]. rewrite <- HL. rewrite map_nth_seq. apply ord_nd. }
    assert (Hpos : forall j, j < n -> pos (nth j order 0) = j).
    { intros j Hj. apply stores_in; auto. eapply Permutation_in; [apply Permutation_sym; exact H1|]. apply in_map_iff. exists j. split; auto. apply in_seq. lia. }
    assert (N2 : NoDup (map fst s2)).
    { eapply Permutation_NoDup; [apply Permutation_map, Permutation_sym, H2|]. rewrite map_map. cbn [fst].
      eapply Permutation_NoDup; [apply Permutation_map; exact HP|]. rewrite <- (map_nth_seq order 0), map_map, HL.
      rewrite (map_ext_in _ (fun j => j)); [rewrite map_id; apply seq_NoDup|]. intros j Hj. apply in_seq in Hj. apply Hpos. lia. }
    set (u := nth i order 0). assert (Hu : u < n) by (apply ord_in, nth_In; lia).
    transitivity (2 * length (filter (fun v => pos u <? pos v) (outn u))).
    - apply stores_in; auto. eapply Permutation_in; [apply Permutation_sym; exact H2|]. apply in_map_iff. exists u. split; [f_equal; apply (Hpos i Hi)|]. apply in_seq. lia.
    - f_equal. unfold dg. f_equal. apply filter_ext_in. intros w Hw. apply eq_iff_eq_true. rewrite Nat.ltb_lt, mem_In, in_suffix by lia. unfold u. rewrite Hpos by auto.
      assert (Hwn : w < n) by (destruct Hsym as [X _]; eapply X; eauto). split.
      + intros L. apply ord_in, (In_nth _ _ 0) in Hwn as (j & Hj & <-). rewrite HL in Hj. rewrite Hpos in L by auto. exists j. split; auto.
      + intros (j & Hj & <-). rewrite Hpos by lia. lia.
  Qed.
  Lemma above_exists : exists a, dens_above n outn order a.
  Proof. eexists. eapply dens_intro; apply Permutation_refl. Qed.

  Lemma suffix_nd i : NoDup (skipn i order).
  Proof. pose proof ord_nd as H. rewrite <- (firstn_skipn i order) in H. now apply NoDup_app_iff in H. Qed.
  Lemma suffix_lt i v : In v (skipn i order) -> v < n.
  Proof. intros H. apply ord_in. rewrite <- (firstn_skipn i order). apply in_or_app. now right. Qed.
  Lemma inside_suffix a : dens_above n outn order a -> forall i, i <= n -> inside outn (skipn i order) = list_sum (map a (seq i (n - i))).
  Proof.
    intros Ha i Hi. remember (n - i) as d eqn:Hd. revert i Hi Hd. induction d as [|d IH]; intros i Hi Hd.
    - rewrite skipn_all2 by (rewrite ord_len; lia). reflexivity.
    - cbn [seq map list_sum fold_right]. change (fold_right Nat.add 0) with list_sum. rewrite <- (IH (S i)) by lia.
      pose proof (suffix_nd i) as N. pose proof (fun v => @suffix_lt i v) as L. rewrite suffix_cons in * by lia.
      rewrite (inside_cons Hsym N L). rewrite (above_spec Ha) by lia. inversion N as [|? ? N1 N2]; subst.
      rewrite dg_cons by auto. set (x := nth i order 0) in *. assert (Hx : x < n) by (apply L; now left).
      destruct (Hsimple Hx) as [_ Hl]. apply (count_occ_not_In Nat.eq_dec) in Hl. lia.
  Qed.
  Lemma scanned_spec a : dens_above n outn order a -> forall i, i < n -> scanned n a i = inside outn (skipn (S i) order).
  Proof. intros Ha i Hi. unfold scanned. now rewrite (inside_suffix Ha) by lia. Qed.
  Lemma total_spec a : dens_above n outn order a -> above_total n a = list_sum (map (fun v => length (outn v)) (seq 0 n)).
  Proof.
    intros Ha. unfold above_total. pose proof (@inside_suffix a Ha 0 ltac:(lia)) as E. rewrite Nat.sub_0_r in E. rewrite <- E. cbn [skipn].
    rewrite (inside_perm outn HP). rewrite inside_dg. f_equal. apply map_ext_in. intros v Hv. unfold dg. rewrite filter_all; auto. intros w Hw. apply in_seq in Hv.
    apply mem_In, in_seq. destruct Hsym as [X _]. assert (w < n); [eapply X; [|eauto]|]; lia.
  Qed.
End Charikar.

Lemma max_frac_spec l : l <> [] -> (forall c, In c l -> 0 < snd c) ->
  In (max_frac l) l /\ forall c, In c l -> fst c * snd (max_frac l) <= fst (max_frac l) * snd c.
Proof.
  induction l as [|a l IH]; [congruence|]. intros _ Hp. pose proof (Hp a (or_introl eq_refl)) as Ha. unfold max_frac. cbn [fold_right]. fold (max_frac l).
  destruct l as [|b l'].
  - cbn [max_frac fold_right]. assert (E : frac_lt a (0, 1) = false). { unfold frac_lt. cbn [fst snd]. apply Nat.ltb_ge. lia. }
    rewrite E. split; [now left|]. intros c [<-|[]]. lia.
  - destruct IH as [I1 I2]; [discriminate|intros c Hc; apply Hp; now right|]. set (l := b :: l') in *. set (m := max_frac l) in *.
    pose proof (Hp m (or_intror I1)) as Hm. unfold frac_lt. destruct (Nat.ltb_spec (fst a * snd m) (fst m * snd a)) as [L|L].
    + split; [now right|]. intros c [<-|Hc]; auto. lia.
    + split; [now left|]. intros c [<-|Hc]; [lia|]. pose proof (I2 c Hc). apply (Nat.mul_le_mono_pos_r _ _ (snd m)); auto. nia.
Qed.
