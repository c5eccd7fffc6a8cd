From Coq Require Import Permutation.
From Verif Require Import Base ListUtil VSModel EMModel BKSpec BKProofs KCModel KCSpec KCProofs DNModel DNSpec.

Definition dg (outn : nat -> list nat) (S : list nat) (v : nat) : nat := length (filter (fun w => mem w S) (outn v)).
Lemma inside_dg outn S : inside outn S = list_sum (map (dg outn S) S). Proof. reflexivity. Qed.
Lemma dg_le outn S T v : (forall w, In w S -> In w T) -> dg outn S v <= dg outn T v.
Proof. intros H. apply filter_le_imp. intros w _ Hw. apply mem_In. apply H. now apply mem_In. Qed.
Lemma dg_same outn S T v : (forall w, In w S <-> In w T) -> dg outn S v = dg outn T v.
Proof. intros H. apply Nat.le_antisymm; apply dg_le; intros; now apply H. Qed.
Lemma sum_perm (l l' : list nat) : Permutation l l' -> list_sum l = list_sum l'.
Proof. induction 1; simpl; lia. Qed.
Lemma inside_perm outn S T : Permutation S T -> inside outn S = inside outn T.
Proof.
  intros H. rewrite !inside_dg. rewrite (sum_perm (Permutation_map _ H)). f_equal. apply map_ext. intros v.
  apply dg_same. intros w. split; apply Permutation_in; [auto|now apply Permutation_sym].
Qed.
Lemma sum_map_add (f g : nat -> nat) l : list_sum (map (fun x => f x + g x) l) = list_sum (map f l) + list_sum (map g l).
Proof. induction l; simpl; lia. Qed.
Lemma sum_map_le (f g : nat -> nat) l : (forall x, In x l -> f x <= g x) -> list_sum (map f l) <= list_sum (map g l).
Proof. induction l; simpl; intros H; [lia|]. pose proof (H a (or_introl eq_refl)). specialize (IHl (fun x Hx => H x (or_intror Hx))). lia. Qed.
Lemma sum_map_ge c (f : nat -> nat) l : (forall x, In x l -> c <= f x) -> c * length l <= list_sum (map f l).
Proof. induction l; simpl; intros H; [lia|]. pose proof (H a (or_introl eq_refl)). specialize (IHl (fun x Hx => H x (or_intror Hx))). lia. Qed.

Lemma dg_cons outn T v u : ~ In v T -> dg outn (v :: T) u = dg outn T u + count_occ Nat.eq_dec (outn u) v.
Proof.
  intros Hv. unfold dg. induction (outn u) as [|w l IH]; auto. cbn [filter count_occ].
  replace (mem w (v :: T)) with ((w =? v) || mem w T) by reflexivity.
  destruct (Nat.eq_dec w v) as [->|Hne].
  - rewrite Nat.eqb_refl. cbn [orb]. assert (E : mem v T = false). { destruct (mem v T) eqn:E; auto. apply mem_In in E. contradiction. }
    rewrite E. cbn [length]. lia.
  - rewrite (proj2 (Nat.eqb_neq _ _) Hne). cbn [orb]. destruct (mem w T); cbn [length]; lia.
Qed.

Lemma some_false {A} (f : A -> bool) l : forallb f l = false -> exists x, In x l /\ f x = false.
Proof.
  induction l as [|a l IH]; [discriminate|]. cbn [forallb]. intros E. apply andb_false_iff in E as [E|E].
  - exists a. split; [now left|auto].
  - destruct (IH E) as (v & Hv & Hl). exists v. split; [now right|auto].
Qed.

Lemma count_filter f l v : count_occ Nat.eq_dec (filter f l) v = if f v then count_occ Nat.eq_dec l v else 0.
Proof.
  induction l as [|a l IH]; cbn [filter count_occ]; [now destruct (f v)|]. destruct (Nat.eq_dec a v) as [->|Hne].
  - destruct (f v) eqn:E; auto. cbn [count_occ]. destruct (Nat.eq_dec v v); [|congruence]. now rewrite IH.
  - destruct (f a); auto. cbn [count_occ]. destruct (Nat.eq_dec a v); [congruence|]. auto.
Qed.

Lemma filter_parts {A} (f : A -> bool) l : length (filter f l) + length (filter (fun x => negb (f x)) l) = length l.
Proof. induction l as [|a l IH]; auto. cbn [filter]. destruct (f a); cbn [negb length]; lia. Qed.

Lemma list_min (f : nat -> nat) l : l <> [] -> exists v, In v l /\ forall w, In w l -> f v <= f w.
Proof.
  intros Hne. induction l as [|a l IH]; [congruence|]. destruct l as [|b l].
  - exists a. split; [now left|]. intros w [->|[]]. auto.
  - destruct IH as (v & Hv & Hm); [discriminate|]. destruct (Nat.le_gt_cases (f a) (f v)).
    + exists a. split; [now left|]. intros w [->|Hw]; auto. specialize (Hm w Hw). lia.
    + exists v. split; [now right|]. intros w [->|Hw]; auto. lia.
Qed.
Lemma some_small (f : nat -> nat) l : l <> [] -> exists v, In v l /\ f v * length l <= list_sum (map f l).
Proof. intros Hne. destruct (list_min f Hne) as (v & Hv & Hm). exists v. split; auto. now apply sum_map_ge. Qed.

Section Graph.
  Variable n : nat.
  Variable outn : nat -> list nat.
  Hypothesis Hsym : symmetric n outn.
  (* taking a vertex out *)
  Lemma inside_cons v T : NoDup (v :: T) -> (forall w, In w (v :: T) -> w < n) ->
    inside outn (v :: T) = inside outn T + dg outn T v + dg outn (v :: T) v.
  Proof.
    intros ND Hn. inversion ND as [|? ? Hv HT]; subst. rewrite !inside_dg. cbn [map list_sum fold_right]. change (fold_right Nat.add 0) with list_sum.
    rewrite (map_ext _ (fun u => dg outn T u + count_occ Nat.eq_dec (outn u) v) (fun u => @dg_cons outn T v u Hv)).
    rewrite sum_map_add. assert (E : list_sum (map (fun u => count_occ Nat.eq_dec (outn u) v) T) = dg outn T v).
    { unfold dg. rewrite <- (count_mem (outn v) HT). f_equal. apply map_ext_in. intros u Hu. destruct Hsym as [_ H]. apply H; apply Hn; simpl; auto. }
    lia.
  Qed.
  Definition balanced (T : list nat) : Prop := forall v, In v T -> inside outn T <= 2 * dg outn T v * length T.
  Lemma reduce_balanced A B : (forall T, vertex_set n T -> balanced T -> inside outn T * B <= A * length T) ->
    forall T, vertex_set n T -> inside outn T * B <= A * length T.
  Proof.
    intros H T. remember (length T) as k eqn:Hk. revert T Hk. induction k as [k IH] using lt_wf_ind. intros T -> HT.
    destruct (forallb (fun v => inside outn T <=? 2 * dg outn T v * length T) T) eqn:E.
    - apply H; auto. intros v Hv. rewrite forallb_forall in E. now apply Nat.leb_le, E.
    - assert (X : exists v, In v T /\ 2 * dg outn T v * length T < inside outn T).
      { destruct (some_false _ _ E) as (v & Hv & Hl). apply Nat.leb_gt in Hl. eauto. }
      destruct X as (v & Hv & Hlt). destruct HT as (ND & Hne & Hn).
      apply in_split in Hv as (l1 & l2 & ET). assert (P : Permutation T (v :: l1 ++ l2)) by (rewrite ET; apply Permutation_sym, Permutation_middle).
      set (T' := l1 ++ l2) in *. assert (ND' : NoDup (v :: T')) by (eapply Permutation_NoDup; eauto).
      assert (Hn' : forall w, In w (v :: T') -> w < n) by (intros w Hw; apply Hn; eapply Permutation_in; [apply Permutation_sym; exact P|auto]).
      assert (Ed : dg outn T v = dg outn (v :: T') v).
      { apply dg_same. intros w. split; apply Permutation_in; [auto|now apply Permutation_sym]. }
      pose proof (inside_perm outn P) as EI. pose proof (inside_cons ND' Hn') as EC. pose proof (Permutation_length P) as EL. cbn [length] in EL.
      assert (Hle : dg outn T' v <= dg outn (v :: T') v) by (apply dg_le; intros w Hw; now right).
      assert (HT' : T' <> []).
      { intros EN. rewrite EN in *. cbn [length] in EL. rewrite EL in Hlt. assert (inside outn (@nil nat) = 0) by reflexivity.
        assert (dg outn [] v = 0). { unfold dg. rewrite filter_none; auto. } lia. }
      assert (HV : vertex_set n T'). { split; [now inversion ND'|]. split; auto. intros w Hw. apply Hn'. now right. }
      assert (L1 : 0 < length T') by (destruct T'; [congruence|simpl; lia]).
      pose proof (IH (length T') ltac:(lia) T' eq_refl HV) as J.
      assert (K : inside outn T * length T' <= inside outn T' * length T).
      { rewrite EL in *. rewrite <- Ed in *. nia. }
      apply (Nat.mul_le_mono_pos_r _ _ (length T')); auto. nia.
  Qed.

  (* -- peeling ------------------------------------------------------------------------------- *)
  Variable null : nat.
  Hypothesis Hdeg : forall v, v < n -> length (outn v) < null.

  Lemma fold_apply_spec res : forall D, NoDup (map fst res) ->
    forall v, fold_left (dn_apply null) res D v = match find (fun p => fst p =? v) res with Some p => usub null (D v) (snd p) | None => D v end.
  Proof.
    induction res as [|[a c] res IH]; intros D ND v; auto. inversion ND as [|? ? Ha ND']; subst. cbn [fold_left find fst snd]. rewrite IH by auto.
    unfold dn_apply. cbn [fst snd]. destruct (Nat.eqb_spec a v) as [->|Hne].
    - rewrite fset_same. destruct (find _ res) as [p|] eqn:Ef; auto. exfalso. apply find_some in Ef as [Hp E]. apply Nat.eqb_eq in E. apply Ha. rewrite <- E. now apply in_map.
    - destruct (find _ res); rewrite fset_other; auto.
  Qed.
  Lemma filter_split_len (f g : nat -> bool) l : length (filter (fun x => f x || g x) l) + length (filter (fun x => f x && g x) l) = length (filter f l) + length (filter g l).
  Proof. induction l as [|a l IH]; simpl; auto. destruct (f a), (g a); simpl; lia. Qed.
  (* the counts handed to apply_f *)
  Lemma counts_spec alive L res : NoDup L -> (forall v, In v L -> v < n) -> (forall v, alive v = true -> v < n) -> ngh_counts n outn alive L res ->
    NoDup (map fst res) /\ forall v c, In (v, c) res <-> alive v = true /\ c = dg outn L v /\ 0 < c.
  Proof.
    intros ND HL HA H. destruct H as [res [Hn H]|res H].
    - split; auto. intros v c. rewrite H.
      assert (E : count_occ Nat.eq_dec (filter alive (flat_map outn L)) v = if alive v then count_occ Nat.eq_dec (flat_map outn L) v else 0).
      { apply count_filter. }
      rewrite E. destruct (alive v) eqn:Ea; [|split; [intros [-> X]; lia|intros [X _]; discriminate]].
      assert (E2 : count_occ Nat.eq_dec (flat_map outn L) v = dg outn L v).
      { rewrite count_sum. unfold dg. rewrite <- (count_mem (outn v) ND). f_equal. apply map_ext_in. intros u Hu. destruct Hsym as [_ X]. apply X; auto. }
      rewrite E2. tauto.
    - set (l0 := filter _ _) in H.
      assert (HI : forall v c, In (v, c) l0 <-> alive v = true /\ c = dg outn L v /\ 0 < c).
      { intros v c. unfold l0. rewrite filter_In, in_map_iff. cbn [snd]. split.
        - intros ((u & E & Hu) & Hc). injection E as -> <-. apply filter_In in Hu as [_ Hu]. apply Nat.ltb_lt in Hc. auto.
        - intros (Ha & -> & Hc). split; [|now apply Nat.ltb_lt]. exists v. split; auto. apply filter_In. split; auto. apply in_seq. specialize (HA v Ha). lia. }
      assert (HN : NoDup (map fst l0)).
      { unfold l0. assert (W : forall (f : nat -> nat) l, NoDup l -> NoDup (map fst (filter (fun p => 0 <? snd p) (map (fun v => (v, f v)) l)))).
        { clear. intros f. induction l as [|a l IH]; intros H; [constructor|]. inversion H; subst. cbn [map filter snd]. destruct (0 <? f a); auto.
          cbn [map fst]. constructor; auto. intros X. apply in_map_iff in X as ([u w] & E & Hu). cbn in E. subst u. apply filter_In in Hu as [Hu _].
          apply in_map_iff in Hu as (z & E & Hz). injection E as -> _. contradiction. }
        apply W, NoDup_filter, seq_NoDup. }
      split; [eapply Permutation_NoDup; [|exact HN]; apply Permutation_map, Permutation_sym, H|].
      intros v c. rewrite <- HI. split; apply Permutation_in; [auto|now apply Permutation_sym].
  Qed.
  Lemma counts_exist alive L : exists res, ngh_counts n outn alive L res.
  Proof. eexists. apply ngh_dense. apply Permutation_refl. Qed.

  Variables p q : nat.
  Hypothesis Hq : 0 < q.
  Record dninv (k : nat) (rem : list nat) (D : nat -> nat) (best : nat * nat) : Prop := {
    d_nd : NoDup rem;
    d_lt : forall v, In v rem -> v < n;
    d_k : k + length rem <= n;
    d_D : forall v, In v rem -> D v = dg outn rem v;
    d_pos : 0 < snd best;
    d_den : (k = 0 /\ best = (0, 1)) \/ exists S, vertex_set n S /\ is_density best outn S;
    d_bal : forall T, vertex_set n T -> balanced T -> (forall v, In v T -> In v rem) \/ at_least best outn T (2 * (q + p)) q }.

  Lemma dninv_start : dninv 0 (seq 0 n) (fun v => length (outn v)) (0, 1).
  Proof.
    split.
    - apply seq_NoDup.
    - intros v Hv. apply in_seq in Hv. lia.
    - rewrite seq_length. lia.
    - intros v Hv. apply in_seq in Hv. unfold dg. rewrite filter_all; auto. intros w Hw. apply mem_In, in_seq. destruct Hsym as [H _]. assert (w < n); [eapply H; [|eauto]|]; lia.
    - simpl. lia.
    - now left.
    - intros T (_ & _ & HT) _. left. intros v Hv. apply in_seq. specialize (HT v Hv). lia.
  Qed.
  Lemma frac_trans a b c d e f : 0 < d -> a * d <= c * b -> c * f <= e * d -> a * f <= e * b.
  Proof. intros Hd H1 H2. apply (Nat.mul_le_mono_pos_r _ _ d); auto. nia. Qed.
  Lemma dninv_round k rem D best res : dninv k rem D best -> rem <> [] ->
    let cur := (list_sum (map D rem), length rem) in
    let kept := filter (fun v => negb (dn_drop p q rem D v)) rem in
    ngh_counts n outn (fun v => existsb (Nat.eqb v) kept) (filter (dn_drop p q rem D) rem) res ->
    dninv (S k) kept (fold_left (dn_apply null) res D) (if frac_lt best cur then cur else best).
  Proof.
    intros HI Hne cur kept HC. set (drop := filter (dn_drop p q rem D) rem) in *.
    set (best' := if frac_lt best cur then cur else best).
    assert (Lr : 0 < length rem) by (destruct rem; [congruence|simpl; lia]).
    assert (Ecur : cur = (inside outn rem, length rem)).
    { unfold cur. f_equal. rewrite inside_dg. f_equal. apply map_ext_in. apply (d_D HI). }
    assert (Hkept : forall v, In v kept <-> In v rem /\ dn_drop p q rem D v = false).
    { intros v. unfold kept. rewrite filter_In, negb_true_iff. tauto. }
    assert (Hdrop : forall v, In v drop <-> In v rem /\ dn_drop p q rem D v = true) by (intros v; apply filter_In).
    assert (Hlen : length drop + length kept = length rem) by apply filter_parts.
    assert (Hd : 0 < length drop).
    { destruct (some_small D Hne) as (v & Hv & Hs). assert (In v drop). { apply Hdrop. split; auto. unfold dn_drop. apply Nat.leb_le. nia. }
      destruct drop; [contradiction|simpl; lia]. }
    assert (B1 : 0 < snd best'). { unfold best'. destruct (frac_lt best cur); [auto|apply (d_pos HI)]. }
    assert (B2 : fst cur * snd best' <= fst best' * snd cur).
    { unfold best', frac_lt. destruct (Nat.ltb_spec (fst best * snd cur) (fst cur * snd best)); lia. }
    assert (B3 : fst best * snd best' <= fst best' * snd best).
    { unfold best', frac_lt. destruct (Nat.ltb_spec (fst best * snd cur) (fst cur * snd best)); lia. }
    destruct (@counts_spec (fun v => mem v kept) drop res) as [ND HR]; auto.
    { apply NoDup_filter, (d_nd HI). }
    { intros v Hv. apply Hdrop in Hv as [Hv _]. now apply (d_lt HI). }
    { intros v Hv. apply mem_In, Hkept in Hv as [Hv _]. now apply (d_lt HI). }
    split; auto.
    - apply NoDup_filter, (d_nd HI).
    - intros v Hv. apply Hkept in Hv as [Hv _]. now apply (d_lt HI).
    - pose proof (d_k HI). lia.
    - intros v Hv. rewrite fold_apply_spec by auto.
      assert (Hvr : In v rem) by now apply Hkept in Hv. pose proof (d_D HI v Hvr) as ED.
      assert (ES : dg outn rem v = dg outn kept v + dg outn drop v).
      { unfold dg. rewrite <- (filter_split_len (fun w => mem w kept) (fun w => mem w drop)).
        rewrite (filter_none (fun w => mem w kept && mem w drop)).
        - simpl. rewrite Nat.add_0_r. f_equal. apply filter_ext. intros w. apply eq_iff_eq_true. rewrite orb_true_iff, !mem_In, Hkept, Hdrop.
          destruct (dn_drop p q rem D w); tauto.
        - intros w _. destruct (mem w kept) eqn:E1; auto. destruct (mem w drop) eqn:E2; auto. exfalso.
          apply mem_In, Hkept in E1. apply mem_In, Hdrop in E2. destruct E1, E2. congruence. }
      destruct (find _ res) as [[u c]|] eqn:Ef.
      + apply find_some in Ef as [Hin E]. cbn [fst snd] in *. apply Nat.eqb_eq in E. subst u. apply HR in Hin as (_ & -> & _).
        assert (dg outn rem v <= length (outn v)) by apply filter_len_le. pose proof (Hdeg (d_lt HI v Hvr)).
        unfold usub. rewrite ED. replace (dg outn rem v + (null + 1) - dg outn drop v) with (dg outn kept v + 1 * (null + 1)) by lia.
        rewrite Nat.mod_add by lia. apply Nat.mod_small. lia.
      + destruct (Nat.eq_dec (dg outn drop v) 0) as [E0|E0]; [lia|]. exfalso.
        assert (Hin : In (v, dg outn drop v) res). { apply HR. split; [now apply mem_In|]. split; auto. lia. }
        apply (find_none _ _ Ef) in Hin. cbn in Hin. rewrite Nat.eqb_refl in Hin. discriminate.
    - right. destruct (frac_lt best cur) eqn:Efr.
      + exists rem. split; [split; [apply (d_nd HI)|]; split; auto; apply (d_lt HI)|]. unfold best'. red. rewrite Ecur. reflexivity.
      + destruct (d_den HI) as [[_ E0]|E0]; [|exact E0].
        (* best = (0, 1) is at least the density of rem, which is then 0 *)
        exists rem. split; [split; [apply (d_nd HI)|]; split; auto; apply (d_lt HI)|]. unfold frac_lt in Efr. apply Nat.ltb_ge in Efr.
        rewrite Ecur, E0 in Efr. cbn [fst snd] in Efr. unfold best'. red. rewrite E0. cbn [fst snd]. lia.
    - intros T HT HB. destruct (d_bal HI HT HB) as [Hin|Hal].
      + destruct (forallb (fun v => mem v kept) T) eqn:E.
        * left. intros v Hv. rewrite forallb_forall in E. now apply mem_In, E.
        * right. assert (X : exists v, In v T /\ ~ In v kept).
          { destruct (some_false _ _ E) as (v & Hv & Hl). exists v. split; auto. intros X. apply mem_In in X. congruence. }
          destruct X as (v & Hv & Hnk). specialize (Hin v Hv) as Hvr. assert (Hdv : dn_drop p q rem D v = true).
          { destruct (dn_drop p q rem D v) eqn:Ed; auto. destruct Hnk. apply Hkept. auto. }
          unfold dn_drop in Hdv. apply Nat.leb_le in Hdv. pose proof (HB v Hv) as Hb.
          assert (Hle : dg outn T v <= D v) by (rewrite (d_D HI v Hvr); apply dg_le; auto).
          unfold at_least. unfold cur in B2. cbn [fst snd] in B2. set (Sg := list_sum (map D rem)) in *. set (I := inside outn T) in *.
          set (r := length rem) in *. set (t := length T) in *. set (d := dg outn T v) in *.
          assert (C1 : I * q * r <= 2 * (q + p) * t * Sg).
          { assert (I * (q * r) <= 2 * D v * t * (q * r)) by (apply Nat.mul_le_mono_r; nia).
            assert (D v * q * r * (2 * t) <= (q + p) * Sg * (2 * t)) by (apply Nat.mul_le_mono_r; auto). nia. }
          apply (Nat.mul_le_mono_pos_r _ _ r); auto.
          assert (I * q * r * snd best' <= 2 * (q + p) * t * Sg * snd best') by (apply Nat.mul_le_mono_r; auto).
          assert (2 * (q + p) * t * (Sg * snd best') <= 2 * (q + p) * t * (fst best' * r)) by (apply Nat.mul_le_mono_l; auto). nia.
      + right. unfold at_least in *. pose proof (d_pos HI) as P0. apply (Nat.mul_le_mono_pos_r _ _ (snd best)); auto.
        assert (inside outn T * q * snd best * snd best' <= 2 * (q + p) * fst best * length T * snd best') by (apply Nat.mul_le_mono_r; auto).
        assert (2 * (q + p) * length T * (fst best * snd best') <= 2 * (q + p) * length T * (fst best' * snd best)) by (apply Nat.mul_le_mono_l; auto). nia.
  Qed.
End Graph.
