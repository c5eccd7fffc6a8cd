(* Proofs for C68: the ESCAPE algorithm. *)
From Coq Require Import ZArith Permutation Sorted.
From Verif Require Import Base ListUtil FCModel FCCount FCKow.
Unset Strict Implicit.
Local Open Scope nat_scope.

Section Escape.
  Variable n : nat.
  Variable g outg ing : nat -> list nat.
  Hypothesis Hn : (Z.of_nat n < 2 ^ 32)%Z.
  Hypothesis Hdec : forall v, v < n -> decreasing (g v).
  Hypothesis Hsym : forall u v, u < n -> In v (g u) -> v < n /\ In u (g v).
  Hypothesis Hirr : forall u, u < n -> ~ In u (g u).
  Hypothesis Hout : forall v, v < n -> outg v = filter (fun x => v <? x) (g v).
  Hypothesis Hing : forall v, v < n -> ing v = filter (fun x => x <? v) (g v).

  Lemma out_In v x : v < n -> (In x (outg v) <-> In x (g v) /\ v < x).
  Proof. intros Hv. rewrite Hout, filter_In, Nat.ltb_lt by auto. tauto. Qed.
  Lemma in_In v x : v < n -> (In x (ing v) <-> In x (g v) /\ x < v).
  Proof. intros Hv. rewrite Hing, filter_In, Nat.ltb_lt by auto. tauto. Qed.
  Lemma out_NoDup v : v < n -> NoDup (outg v).
  Proof. intros Hv. rewrite Hout by auto. apply NoDup_filter', decreasing_NoDup. now apply Hdec. Qed.
  Lemma in_NoDup v : v < n -> NoDup (ing v).
  Proof. intros Hv. rewrite Hing by auto. apply NoDup_filter', decreasing_NoDup. now apply Hdec. Qed.
  Lemma out_lt v x : v < n -> In x (outg v) -> x < n.
  Proof. intros Hv H. apply out_In in H as [H _]; auto. now apply Hsym in H. Qed.
  Lemma in_lt v x : v < n -> In x (ing v) -> x < n.
  Proof. intros Hv H. apply in_In in H as [H _]; auto. now apply Hsym in H. Qed.

  (* the ends of the wedges from i *)
  Definition ends (i : nat) : list nat := flat_map outg (outg i) ++ flat_map g (ing i).
  Lemma ends_lt i x : i < n -> In x (ends i) -> x < n.
  Proof.
    intros Hi H. apply in_app_iff in H as [H|H]; apply in_flat_map in H as (m & Hm & H).
    - apply out_lt in H; auto. now apply (@out_lt i).
    - apply Hsym in H; [tauto|]. now apply (@in_lt i).
  Qed.
  Lemma wedges_iter f i U : wedges n g outg ing f i U = iter (upd n f) (ends i) U.
  Proof. unfold wedges, ends. rewrite iter_app, iter_flat. destruct (iter _ _ U); auto. apply iter_flat. Qed.
  Lemma upd_zero l : forall U, (forall x, In x l -> x < n) -> exists U', iter (upd n (fun _ => 0%Z)) l U = Some U' /\ forall x, U' x = if memb x l then 0%Z else U x.
  Proof.
    induction l as [|w l IH]; intros U Hl; cbn [iter]; [exists U; auto|]. unfold upd at 1. rewrite (proj2 (Nat.ltb_lt _ _) (Hl w (or_introl eq_refl))).
    destruct (IH (fset U w 0%Z)) as (U' & E & H); [intros; apply Hl; now right|]. exists U'. split; auto. intros x. rewrite H. unfold memb. cbn [existsb].
    destruct (Nat.eqb_spec x w) as [->|Hx]; cbn [orb]; [rewrite fset_same; destruct (existsb _ _); auto|now rewrite fset_other].
  Qed.
  Lemma upd_one l : forall l0 U, (forall x, In x l -> x < n) -> (forall x, (Z.of_nat (count_occ Nat.eq_dec (l0 ++ l) x) < 2 ^ 32)%Z) -> (forall x, U x = Z.of_nat (count_occ Nat.eq_dec l0 x)) ->
    exists U', iter (upd n (fun z => w32 (z + 1))) l U = Some U' /\ forall x, U' x = Z.of_nat (count_occ Nat.eq_dec (l0 ++ l) x).
  Proof.
    induction l as [|w l IH]; intros l0 U Hl Hc HU; cbn [iter]; [exists U; rewrite app_nil_r; auto|]. unfold upd at 1. rewrite (proj2 (Nat.ltb_lt _ _) (Hl w (or_introl eq_refl))).
    destruct (IH (l0 ++ [w]) (fset U w (w32 (U w + 1)))) as (U' & E & H).
    - intros; apply Hl; now right.
    - intros x. rewrite <- app_assoc. apply Hc.
    - intros x. rewrite count_occ_app. cbn [count_occ]. destruct (Nat.eq_dec w x) as [<-|Hx].
      + rewrite fset_same, HU. unfold w32. specialize (Hc w). rewrite count_occ_app in Hc. cbn [count_occ] in Hc. destruct (Nat.eq_dec w w); [|congruence]. rewrite Z.mod_small; lia.
      + rewrite fset_other, HU by auto. lia.
    - exists U'. rewrite <- app_assoc in H. auto.
  Qed.

  (* the middle vertices of the wedges from i to l that are not greater than both ends *)
  Definition mid (i l m : nat) : bool := memb l (g m) && negb ((i <? m) && (l <? m)).
  Lemma filter_split {A} (P Q R : A -> bool) l : (forall x, In x l -> R x = negb (Q x)) ->
    length (filter P l) = length (filter P (filter Q l)) + length (filter P (filter R l)).
  Proof.
    induction l as [|x l IH]; simpl; intros H; auto. rewrite (H x) by now left. specialize (IH (fun y Hy => H y (or_intror Hy))).
    destruct (Q x); simpl; destruct (P x); simpl; lia.
  Qed.
  Lemma ends_count i l : i < n -> count_occ Nat.eq_dec (ends i) l = length (filter (mid i l) (g i)).
  Proof.
    intros Hi. unfold ends. rewrite count_occ_app.
    rewrite count_occ_flat by (intros u Hu; apply out_NoDup; now apply (@out_lt i)).
    rewrite count_occ_flat by (intros u Hu; apply decreasing_NoDup, Hdec; now apply (@in_lt i)).
    rewrite (@filter_split _ (mid i l) (fun x => i <? x) (fun x => x <? i)).
    - rewrite <- Hout, <- Hing by auto. f_equal.
      + f_equal. apply filter_ext_in'. intros m Hm. assert (Hmn : m < n) by now apply (@out_lt i). apply out_In in Hm as [Hm Him]; auto. apply eq_true_iff_eq. unfold mid.
        rewrite andb_true_iff, negb_true_iff, (proj2 (Nat.ltb_lt i m) Him), !memb_In, out_In by auto. cbn [andb]. rewrite Nat.ltb_ge. split; intros [H1 H2]; split; auto; [lia|].
        assert (l <> m) by (intros ->; now apply (Hirr Hmn)). lia.
      + f_equal. apply filter_ext_in'. intros m Hm. apply in_In in Hm as [Hm Him]; auto. unfold mid. rewrite (proj2 (Nat.ltb_ge i m)) by lia. cbn [andb negb]. now rewrite andb_true_r.
    - intros x Hx. assert (x <> i) by (intros ->; now apply (Hirr Hi)). destruct (Nat.ltb_spec x i), (Nat.ltb_spec i x); auto; lia.
  Qed.
  Lemma g_len i : i < n -> length (g i) <= n.
  Proof.
    intros Hi. replace n with (length (seq 0 n)) by apply seq_length. apply NoDup_incl_length; [now apply decreasing_NoDup, Hdec|]. intros y Hy. apply in_seq. apply Hsym in Hy; auto. lia.
  Qed.
  Lemma ends_small i l : i < n -> (Z.of_nat (count_occ Nat.eq_dec (ends i) l) < 2 ^ 32)%Z.
  Proof. intros Hi. rewrite ends_count by auto. pose proof (filter_len_le (mid i l) (g i)). pose proof (g_len Hi). lia. Qed.

  Definition fifth (i j k l : nat) : list nat := filter (fun m => negb (m =? j) && (negb (m =? k) && mid i l m)) (g i).
  Definition paths_l (i j k : nat) : list nat := filter (fun l => negb ((l =? i) || (l =? j))) (outg k).
  Definition tuples (i : nat) : list tup :=
    flat_map (fun j => flat_map (fun k => flat_map (fun l => map (fun m => (k, j, i, m, l)) (fifth i j k l)) (paths_l i j k)) (ing j)) (ing i).
  Lemma fifth_count i j k l : i < n -> In j (ing i) -> In k (ing j) -> In l (outg k) ->
    Z.of_nat (length (fifth i j k l)) = (Z.of_nat (count_occ Nat.eq_dec (ends i) l) - zb (memb k (g i)) - zb (memb l (g j)))%Z.
  Proof.
    intros Hi Hj Hk Hl. assert (Hjn : j < n) by now apply (@in_lt i). assert (Hkn : k < n) by now apply (@in_lt j).
    apply in_In in Hj as [Hj Lj]; auto. apply in_In in Hk as [Hk Lk]; auto. apply out_In in Hl as [Hl Ll]; auto.
    unfold fifth. rewrite (@count_without (fun m => negb (m =? k) && mid i l m)) by now apply decreasing_NoDup, Hdec.
    rewrite (@count_without (mid i l)) by now apply decreasing_NoDup, Hdec. rewrite <- ends_count by auto.
    rewrite (proj2 (Nat.eqb_neq j k)) by lia. cbn [negb andb]. rewrite (proj2 (memb_In j (g i)) Hj). cbn [andb].
    unfold mid. rewrite (proj2 (Nat.ltb_ge i j)) by lia. rewrite (proj2 (Nat.ltb_ge i k)) by lia. rewrite (proj2 (memb_In l (g k)) Hl). cbn [andb negb]. rewrite !andb_true_r. lia.
  Qed.
  Lemma vertex_ok i U c : i < n -> (forall x, U x = 0%Z) -> w64 c = c ->
    exists U', escape_vertex n g outg ing i (U, c) = Some (U', w64 (c + len (tuples i))) /\ forall x, U' x = 0%Z.
  Proof.
    intros Hi HU Hc. unfold escape_vertex. destruct (Nat.eqb_spec (length (g i)) 0) as [E|E].
    - apply length_zero_iff_nil in E. exists U. split; auto. unfold tuples. replace (ing i) with (@nil nat) by (rewrite Hing, E; auto). cbn. rewrite Z.add_0_r. now do 2 f_equal.
    - rewrite wedges_iter. destruct (@upd_one (ends i) [] U) as (U1 & E1 & H1).
      + intros x Hx. now apply (@ends_lt i).
      + intros x. now apply ends_small.
      + intros x. apply HU.
      + rewrite E1. cbn [app] in H1.
        assert (E2 : close_paths n g outg ing i (fset U1 i 0%Z) = Some (w64 (0 + zsum (fun j => len (flat_map (fun k => flat_map (fun l => map (fun m => (k, j, i, m, l)) (fifth i j k l)) (paths_l i j k)) (ing j))) (ing i)))).
        { unfold close_paths. apply iter_sum; [|reflexivity]. intros j t Hj Ht. assert (Hjn : j < n) by now apply (@in_lt i).
          destruct (Nat.eqb_spec (length (g j)) 0) as [Ej|_].
          - exfalso. apply length_zero_iff_nil in Ej. apply in_In in Hj as [Hj _]; auto. apply Hsym in Hj as [_ Hj]; auto. rewrite Ej in Hj. destruct Hj.
          - match goal with |- iter ?f ?lst t = _ => rewrite (@iter_sum _ f (fun k => len (flat_map (fun l => map (fun m => (k, j, i, m, l)) (fifth i j k l)) (paths_l i j k))) lst) end; auto.
            + do 3 f_equal. unfold len. now rewrite zsum_len.
            + clear t Ht. intros k t Hk Ht. assert (Hkn : k < n) by now apply (@in_lt j).
              match goal with |- iter ?f ?lst t = _ => rewrite (@iter_sum _ f (fun l => if negb ((l =? i) || (l =? j)) then len (fifth i j k l) else 0%Z) lst) end; auto.
              * do 3 f_equal. unfold len. rewrite <- zsum_len. unfold paths_l. rewrite (zsum_filter (fun l => negb ((l =? i) || (l =? j)))). apply zsum_ext. intros l Hl. destruct (negb _); auto. now rewrite map_length.
              * clear t Ht. intros l t Hl Ht. destruct (Nat.eqb_spec l i) as [->|Hli]; cbn [orb negb]; [rewrite Z.add_0_r; now f_equal|]. destruct (Nat.eqb_spec l j) as [->|Hlj]; cbn [negb]; [rewrite Z.add_0_r; now f_equal|].
                assert (Hln : l < n) by now apply (@out_lt k). rewrite (proj2 (Nat.ltb_lt _ _) Hln). rewrite fset_other by auto. rewrite !has_spec by now apply Hdec.
                rewrite H1. f_equal. unfold len. rewrite fifth_count by auto. unfold w64. rewrite Zminus_mod_idemp_l.
                rewrite <- Z.sub_add_distr. rewrite Zminus_mod_idemp_l. f_equal. lia. }
        rewrite E2, wedges_iter. destruct (@upd_zero (ends i) (fset U1 i 0%Z)) as (U3 & E3 & H3); [intros x Hx; now apply (@ends_lt i)|].
        rewrite E3. exists U3. split.
        * do 2 f_equal. rewrite Z.add_0_l. unfold w64. rewrite Zplus_mod_idemp_r. do 2 f_equal. unfold len. now rewrite zsum_len.
        * intros x. rewrite H3. destruct (memb x (ends i)) eqn:M; auto. destruct (Nat.eq_dec x i) as [->|Hx]; [apply fset_same|]. rewrite fset_other, H1 by auto.
          assert (X : ~ In x (ends i)) by (intros X; apply memb_In in X; congruence). apply (count_occ_not_In Nat.eq_dec) in X. lia.
  Qed.
  Theorem serial_ok : escape_serial n g outg ing = Some (w64 (len (flat_map tuples (seq 0 n)))).
  Proof.
    unfold escape_serial. destruct (@iter_pair nat (nat -> Z) (fun U => forall x, U x = 0%Z) (escape_vertex n g outg ing) (fun i => len (tuples i)) (seq 0 n)) with (v := fun _ : nat => 0%Z) (t := 0%Z) as (U & E & _); auto.
    - intros i U t Hi HU Ht. apply in_seq in Hi. apply vertex_ok; auto. lia.
    - rewrite E. cbn [option_map snd]. do 2 f_equal. unfold len. now rewrite zsum_len.
  Qed.
  Theorem blocks_ok nb range order : (forall b i, In i (range b) -> i < n) -> Permutation order (seq 0 nb) -> concat (map range (seq 0 nb)) = seq 0 n ->
    escape_blocks n g outg ing nb range order = Some (w64 (len (flat_map tuples (seq 0 n)))).
  Proof.
    intros Hr Hp Hcat. unfold escape_blocks. assert (Hnd : NoDup order) by (eapply Permutation_NoDup; [apply Permutation_sym; eauto|apply seq_NoDup]).
    set (a := fun b => w64 (len (flat_map tuples (range b)))).
    assert (X : forall order done counts, NoDup (done ++ order) -> (forall b, counts b = if memb b done then a b else 0%Z) ->
      exists counts', iter (escape_block n g outg ing range) order counts = Some counts' /\ (forall b, counts' b = if memb b (done ++ order) then a b else 0%Z)).
    { clear Hp Hnd order. induction order as [|b order IH]; intros done counts Hnd Hc; cbn [iter].
      - exists counts. rewrite app_nil_r. auto.
      - assert (Hb : memb b done = false). { destruct (memb b done) eqn:M; auto. apply memb_In in M. apply NoDup_app_iff in Hnd as (_ & _ & Hd). exfalso. apply (Hd b M). now left. }
        unfold escape_block at 1. rewrite (@iter_sum nat _ (fun i => len (tuples i))).
        + destruct (IH (done ++ [b]) (fset counts b (w64 (counts b + zsum (fun i => len (tuples i)) (range b))))) as (counts' & E & H).
          * now rewrite <- app_assoc.
          * intros c. unfold memb. rewrite existsb_app. cbn [existsb]. rewrite orb_false_r. destruct (Nat.eqb_spec c b) as [->|Hcb].
            -- rewrite fset_same, orb_true_r, Hc, Hb. unfold a, len. now rewrite zsum_len.
            -- rewrite fset_other, orb_false_r by auto. apply Hc.
          * exists counts'. rewrite <- app_assoc in H. auto.
        + intros i t Hi Ht. destruct (@vertex_ok i (fun _ => 0%Z) t) as (U & E & _); auto; [now apply (Hr b)|]. now rewrite E.
        + now rewrite Hc, Hb. }
    destruct (X order [] (fun _ => 0%Z)) as (counts & E & H2); auto. rewrite E. f_equal.
    assert (Y : forall l t, (forall b, In b l -> In b order) -> w64 t = t -> fold_left (fun t b => w64 (t + counts b)) l t = w64 (t + zsum (fun b => len (flat_map tuples (range b))) l)).
    { induction l as [|b l IH]; intros t Hl Ht; cbn [fold_left zsum fold_right]; [rewrite Z.add_0_r; auto|]. rewrite IH; [|intros; apply Hl; now right|apply w64_idem].
      rewrite w64_add. rewrite H2. assert (M : memb b ([] ++ order) = true) by (apply memb_In; apply Hl; now left). rewrite M. unfold a, w64. fold (zsum (fun b => len (flat_map tuples (range b))) l).
      replace (t + len (flat_map tuples (range b)) mod 2 ^ 64 + zsum (fun b => len (flat_map tuples (range b))) l)%Z with (len (flat_map tuples (range b)) mod 2 ^ 64 + (t + zsum (fun b => len (flat_map tuples (range b))) l))%Z by lia.
      rewrite Zplus_mod_idemp_l. f_equal. lia. }
    rewrite Y; auto.
    - rewrite Z.add_0_l. f_equal. rewrite <- Hcat. unfold len. rewrite <- (zsum_len tuples), zsum_concat, zsum_map. apply zsum_ext. intros b Hb. now rewrite <- zsum_len.
    - intros b Hb. eapply Permutation_in; [apply Permutation_sym; exact Hp|auto].
  Qed.

  Let E u v := In v (g u).
  Lemma tuples_In t : In t (flat_map tuples (seq 0 n)) <-> closed_walk n E t /\ escape t = true.
  Proof.
    destruct t as [[[[a b] c] d] e]. unfold tuples, paths_l, fifth, mid. rewrite in_flat_map. cbn [closed_walk escape]. rewrite !andb_true_iff, !Nat.ltb_lt, nodup5. unfold E. split.
    - intros (i & Hi & H). apply in_seq in Hi. apply in_flat_map in H as (j & Hj & H). apply in_flat_map in H as (k & Hk & H). apply in_flat_map in H as (l & Hl & H).
      apply in_map_iff in H as (m & Em & Hm). injection Em as -> -> -> -> ->. assert (Hc : c < n) by lia. clear Hi.
      apply filter_In in Hm as [Hm Pm]. rewrite !andb_true_iff, !negb_true_iff, !Nat.eqb_neq, memb_In in Pm. destruct Pm as (M1 & M2 & M3 & M4).
      assert (Hb : b < n) by now apply (@in_lt c). assert (Ha : a < n) by now apply (@in_lt b). 
      apply filter_In in Hl as [Hl Pl]. rewrite negb_true_iff, orb_false_iff, !Nat.eqb_neq in Pl. assert (He : e < n) by now apply (@out_lt a).
      apply in_In in Hj as [Hj Lj]; auto. apply in_In in Hk as [Hk Lk]; auto. apply out_In in Hl as [Hl Ll]; auto.
      pose proof (Hsym Hc Hj) as [_ Hj']. pose proof (Hsym Hb Hk) as [_ Hk']. pose proof (Hsym Ha Hl) as [_ Hl']. pose proof (Hsym Hc Hm) as [Hd Hm'].
      assert (d <> c) by (intros ->; now apply (Hirr Hc)). assert (d <> e) by (intros ->; now apply (Hirr He)). rewrite negb_true_iff. repeat split; auto; lia.
    - intros (((Ha & Hb & Hc & Hd & He) & D & H1 & H2 & H3 & H4 & H5) & ((L1 & L2) & L3) & R). rewrite negb_true_iff in R.
      pose proof (Hsym Ha H1) as [_ H1']. pose proof (Hsym Hb H2) as [_ H2']. pose proof (Hsym He H5) as [_ H5'].
      exists c. split; [apply in_seq; lia|]. apply in_flat_map. exists b. split; [apply in_In; auto|]. apply in_flat_map. exists a. split; [apply in_In; auto|]. apply in_flat_map. exists e. split.
      + apply filter_In. split; [apply out_In; auto|]. rewrite negb_true_iff, orb_false_iff, !Nat.eqb_neq. split; intros ->; tauto.
      + apply in_map_iff. exists d. split; auto. apply filter_In. split; auto. rewrite !andb_true_iff, !negb_true_iff, !Nat.eqb_neq, memb_In. repeat split; auto; intros ->; tauto.
  Qed.
  Lemma tuples_NoDup : NoDup (flat_map tuples (seq 0 n)).
  Proof.
    apply NoDup_flat; [apply seq_NoDup| |].
    - intros i Hi. apply in_seq in Hi. assert (Hi' : i < n) by lia. unfold tuples. apply NoDup_flat; [now apply in_NoDup| |].
      + intros j Hj. assert (Hjn : j < n) by now apply (@in_lt i). apply NoDup_flat; [now apply in_NoDup| |].
        * intros k Hk. assert (Hkn : k < n) by now apply (@in_lt j). apply NoDup_flat.
          -- unfold paths_l. apply NoDup_filter'. now apply out_NoDup.
          -- intros l Hl. apply FinFun.Injective_map_NoDup; [intros y y' Ey; congruence|]. unfold fifth. apply NoDup_filter'. now apply decreasing_NoDup, Hdec.
          -- intros x x' z Hz Hz'. apply in_map_iff in Hz as (y & <- & _), Hz' as (y' & Ey & _). congruence.
        * intros w w' z Hz Hz'. apply in_flat_map in Hz as (x & _ & Hz), Hz' as (x' & _ & Hz'). apply in_map_iff in Hz as (y & <- & _), Hz' as (y' & Ey & _). congruence.
      + intros u u' z Hz Hz'. apply in_flat_map in Hz as (w & _ & Hz), Hz' as (w' & _ & Hz'). apply in_flat_map in Hz as (x & _ & Hz), Hz' as (x' & _ & Hz'). apply in_map_iff in Hz as (y & <- & _), Hz' as (y' & Ey & _). congruence.
    - intros i i' z Hz Hz'. apply in_flat_map in Hz as (u & _ & Hz), Hz' as (u' & _ & Hz'). apply in_flat_map in Hz as (w & _ & Hz), Hz' as (w' & _ & Hz').
      apply in_flat_map in Hz as (x & _ & Hz), Hz' as (x' & _ & Hz'). apply in_map_iff in Hz as (y & <- & _), Hz' as (y' & Ey & _). congruence.
  Qed.
  Lemma escape_count T : NoDup T -> (forall t, In t T <-> closed_walk n E t) -> 10 * length (flat_map tuples (seq 0 n)) = length T.
  Proof.
    intros HT TIn. rewrite <- (@chosen_count n E Hsym T HT TIn escape) by (intros; eapply escape_hits; eauto). f_equal.
    apply Permutation_length, NoDup_Permutation; [apply tuples_NoDup|now apply NoDup_filter'|]. intros t. rewrite tuples_In, filter_In, TIn. tauto.
  Qed.
End Escape.
