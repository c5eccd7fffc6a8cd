(* Proofs about the counting-down edge functions. *)
From Coq Require Import ZArith Permutation.
From Verif Require Import Base ListUtil VSModel VSSpec VSProofs VSProps EMModel EMSpec EMProofs EMPar EMModes EMProps EMPush CDModel.
Local Open Scope Z_scope.

Section Machine.
  Variable ok : nat -> nat -> bool.
  Variable p0 : nat -> Z.
  Variable atts : list attempt.
  Definition aimed (d : nat) (a : attempt) : bool := (dst a =? d)%nat && ok (src a) (dst a).
  Definition cnt (d : nat) (l : list attempt) : Z := Z.of_nat (length (filter (aimed d) l)).
  Hypothesis Hle : forall d, 0 < p0 d -> cnt d atts <= p0 d.
  Definition pend (d : nat) (s : cstate) : Z := cnt d (flat_map ctodo (cthr s)).

  Record CI (s : cstate) : Prop := {
    ci_cnt : forall d, 0 < p0 d -> cp s d + cnt d atts = p0 d + pend d s;
    ci_neg : forall d, p0 d <= 0 -> cp s d = p0 d;
    ci_sub : forall th, In th (cthr s) -> cpcs th = CSub -> exists a rest, ctodo th = a :: rest /\ ok (src a) (dst a) = true /\ 0 < p0 (dst a);
    ci_in : forall th a, In th (cthr s) -> In a (ctodo th) -> In a atts;
    ci_log : forall a, In a (clog s) -> In a atts;
    ci_nd : NoDup (map dst (clog s));
    ci_out : forall d, In d (map dst (clog s)) <-> 0 < p0 d /\ cp s d = 0 }.

  Lemma cnt_app d l1 l2 : cnt d (l1 ++ l2) = cnt d l1 + cnt d l2.
  Proof. unfold cnt. rewrite filter_app, app_length. lia. Qed.
  Lemma cnt_cons d a l : cnt d (a :: l) = (if aimed d a then 1 else 0) + cnt d l.
  Proof. unfold cnt. simpl. destruct (aimed d a); simpl length; lia. Qed.
  Lemma cnt_pos d l : 0 <= cnt d l. Proof. unfold cnt. lia. Qed.
  Lemma flat_lset (l : list cthread) t th th' : nth_error l t = Some th ->
    forall d, cnt d (flat_map ctodo (lset l t th')) = cnt d (flat_map ctodo l) - cnt d (ctodo th) + cnt d (ctodo th').
  Proof.
    revert t. induction l as [|x l IH]; intros [|t] H d; simpl in *; try discriminate.
    - injection H as ->. rewrite !cnt_app. lia.
    - rewrite !cnt_app, (IH t H). lia.
  Qed.

  Lemma ci_step s t : CI s -> CI (cstep ok s t).
  Proof.
    intros HI. unfold cstep. destruct (nth_error (cthr s) t) as [th|] eqn:Et; auto. destruct (ctodo th) as [|a rest] eqn:Ed; auto.
    assert (Hth : In th (cthr s)) by (eapply nth_error_In; eauto).
    assert (Hrest : forall q, In q rest -> In q atts) by (intros q Hq; apply (ci_in HI th q Hth); rewrite Ed; now right).
    assert (Ha : In a atts) by (apply (ci_in HI th a Hth); rewrite Ed; now left).
    assert (Hin : forall th' l b, In th' (lset (cthr s) t {| ctodo := l; cpcs := b |}) -> th' = {| ctodo := l; cpcs := b |} \/ In th' (cthr s)).
    { intros th' l b H. apply In_lset in H. tauto. }
    assert (Hpend : forall l b d, cnt d (flat_map ctodo (lset (cthr s) t {| ctodo := l; cpcs := b |})) = pend d s - cnt d (a :: rest) + cnt d l).
    { intros l b d. rewrite (flat_lset _ _ _ Et). simpl. rewrite Ed. reflexivity. }
    destruct (cpcs th) eqn:Epc.
    - (* test *)
      destruct (0 <? cp s (dst a)) eqn:Ec; [destruct (ok (src a) (dst a)) eqn:Eo|].
      + constructor; simpl.
        * intros d Hd. unfold pend. simpl. rewrite Hpend. pose proof (ci_cnt HI Hd). lia.
        * apply (ci_neg HI).
        * intros th' H E. apply Hin in H as [->|H]; [|now apply (ci_sub HI)]. simpl. exists a, rest. repeat split; auto.
          apply Z.ltb_lt in Ec. destruct (Z.le_gt_cases (p0 (dst a)) 0) as [Hz|Hz]; [rewrite (ci_neg HI) in Ec by auto; lia|auto].
        * intros th' q H Hq. apply Hin in H as [->|H]; [destruct Hq as [<-|Hq]; auto|now apply (ci_in HI th')].
        * apply (ci_log HI).
        * apply (ci_nd HI).
        * apply (ci_out HI).
      + constructor; simpl.
        * intros d Hd. unfold pend. simpl. rewrite Hpend, cnt_cons. pose proof (ci_cnt HI Hd).
          assert (aimed d a = false) as -> by (unfold aimed; rewrite Eo; apply andb_false_r). lia.
        * apply (ci_neg HI).
        * intros th' H E. apply Hin in H as [->|H]; [discriminate|now apply (ci_sub HI)].
        * intros th' q H Hq. apply Hin in H as [->|H]; [auto|now apply (ci_in HI th')].
        * apply (ci_log HI).
        * apply (ci_nd HI).
        * apply (ci_out HI).
      + apply Z.ltb_ge in Ec. constructor; simpl.
        * intros d Hd. unfold pend. simpl. rewrite Hpend, cnt_cons. pose proof (ci_cnt HI Hd) as HC.
          assert (aimed d a = false) as ->; [|lia]. destruct (aimed d a) eqn:Em; auto. exfalso.
          pose proof Em as Em'. unfold aimed in Em'. apply andb_true_iff in Em' as [E1 _]. apply Nat.eqb_eq in E1. rewrite E1 in Ec. pose proof (Hle Hd).
          assert (1 <= pend d s); [|lia]. pose proof (Hpend rest CTest d) as HP. rewrite cnt_cons, Em in HP.
          pose proof (cnt_pos d (flat_map ctodo (lset (cthr s) t {| ctodo := rest; cpcs := CTest |}))). lia.
        * apply (ci_neg HI).
        * intros th' H E. apply Hin in H as [->|H]; [discriminate|now apply (ci_sub HI)].
        * intros th' q H Hq. apply Hin in H as [->|H]; [auto|now apply (ci_in HI th')].
        * apply (ci_log HI).
        * apply (ci_nd HI).
        * apply (ci_out HI).
    - (* subtract *)
      destruct (ci_sub HI th Hth Epc) as (a' & rest' & E & Eo & Hp). rewrite Ed in E. injection E as <- <-.
      assert (Em : aimed (dst a) a = true) by (unfold aimed; rewrite Nat.eqb_refl, Eo; reflexivity).
      assert (Hone : 1 <= cp s (dst a)).
      { pose proof (ci_cnt HI Hp). pose proof (Hle Hp). pose proof (Hpend rest CTest (dst a)) as HP. rewrite cnt_cons, Em in HP.
        pose proof (cnt_pos (dst a) (flat_map ctodo (lset (cthr s) t {| ctodo := rest; cpcs := CTest |}))). lia. }
      constructor; simpl.
      + intros d Hd. unfold pend. simpl. rewrite Hpend, cnt_cons. pose proof (ci_cnt HI Hd). destruct (Nat.eq_dec d (dst a)) as [->|N].
        * rewrite fset_same, Em. lia.
        * rewrite fset_other by auto. assert (aimed d a = false) as -> by (unfold aimed; destruct (Nat.eqb_spec (dst a) d); [congruence|auto]). lia.
      + intros d Hd. rewrite fset_other; [now apply (ci_neg HI)|]. intros ->. lia.
      + intros th' H E. apply Hin in H as [->|H]; [discriminate|now apply (ci_sub HI)].
      + intros th' q H Hq. apply Hin in H as [->|H]; [auto|now apply (ci_in HI th')].
      + intros q. destruct (_ =? 1); [intros [<-|Hq]|intros Hq]; auto; now apply (ci_log HI).
      + destruct (_ =? 1); [|apply (ci_nd HI)]. simpl. constructor; [|apply (ci_nd HI)].
        intros H. apply (ci_out HI) in H as [_ H]. lia.
      + intros d. destruct (Nat.eq_dec d (dst a)) as [->|N].
        * rewrite fset_same. destruct (Z.eqb_spec (cp s (dst a)) 1) as [E1|E1].
          -- simpl. split; [intros _; lia|now left].
          -- rewrite (ci_out HI). split; intros [_ H]; lia.
        * rewrite fset_other by auto. destruct (_ =? 1); [|apply (ci_out HI)]. simpl. rewrite <- (ci_out HI). split; [intros [H|H]; congruence|now right].
  Qed.
  Lemma ci_exec sched : forall s, CI s -> CI (cexec ok sched s).
  Proof. induction sched as [|t sched IH]; intros s H; simpl; auto. apply IH, ci_step, H. Qed.
  Lemma ci_start ts : atts = flat_map todo ts -> CI (cstart p0 ts).
  Proof.
    intros E. assert (EF : flat_map ctodo (map (fun th => {| ctodo := todo th; cpcs := CTest |}) ts) = atts).
    { rewrite E. clear. induction ts as [|th ts IH]; simpl; auto. now rewrite IH. }
    constructor; simpl.
    - intros d Hd. unfold pend. simpl. rewrite EF. lia.
    - auto.
    - intros th H Ec. apply in_map_iff in H as (th0 & <- & _). discriminate.
    - intros th a H Ha. apply in_map_iff in H as (th0 & <- & Ht). rewrite E. apply in_flat_map. eauto.
    - intros a [].
    - constructor.
    - intros d. split; [tauto|lia].
  Qed.
  Lemma ci_end s : CI s -> cfinished s ->
    (forall d, 0 < p0 d -> cp s d = p0 d - cnt d atts) /\ (forall d, p0 d <= 0 -> cp s d = p0 d) /\
    (forall d, (exists a, In a (clog s) /\ dst a = d) <-> 0 < p0 d /\ p0 d = cnt d atts).
  Proof.
    intros HI Hf. assert (Hp : forall d, pend d s = 0).
    { intros d. unfold pend. unfold cfinished in Hf. rewrite Forall_forall in Hf.
      assert (flat_map ctodo (cthr s) = []) as ->; [|reflexivity]. clear - Hf. induction (cthr s) as [|th l IH]; simpl; auto.
      rewrite (Hf th (or_introl eq_refl)). simpl. apply IH. intros x Hx. apply Hf. now right. }
    assert (H1 : forall d, 0 < p0 d -> cp s d = p0 d - cnt d atts) by (intros d Hd; pose proof (ci_cnt HI Hd); rewrite Hp in *; lia).
    split; auto. split; [apply (ci_neg HI)|]. intros d.
    transitivity (In d (map dst (clog s))); [rewrite in_map_iff; split; intros (a & A & B); eauto|].
    rewrite (ci_out HI). split; intros [A B]; rewrite ?H1 in * by auto; split; auto; lia.
  Qed.

  (* every task takes at most two steps per edge *)
  Definition cfuel (th : cthread) : nat := match ctodo th, cpcs th with [], _ => 0 | l, CTest => 2 * length l | l, CSub => 2 * length l - 1 end.
  Lemma step_fuel s t th : nth_error (cthr s) t = Some th ->
    exists th', nth_error (cthr (cstep ok s t)) t = Some th' /\ (cfuel th' <= cfuel th - 1)%nat.
  Proof.
    intros E. unfold cstep. rewrite E. unfold cfuel. destruct (ctodo th) as [|a rest] eqn:Ed.
    - exists th. rewrite Ed. split; auto.
    - assert (Hl : (t < length (cthr s))%nat) by (apply nth_error_Some; congruence).
      destruct (cpcs th); simpl; [destruct (0 <? cp s (dst a)); [destruct (ok (src a) (dst a))|]|]; rewrite nth_error_lset_same by auto;
        eexists; (split; [reflexivity|]); simpl; try lia; destruct rest; simpl; lia.
  Qed.
  Lemma step_other s t u : t <> u -> nth_error (cthr (cstep ok s t)) u = nth_error (cthr s) u.
  Proof.
    intros N. unfold cstep. destruct (nth_error (cthr s) t) as [th|]; auto. destruct (ctodo th) as [|a rest]; auto.
    destruct (cpcs th); simpl; [destruct (0 <? cp s (dst a)); [destruct (ok (src a) (dst a))|]|]; now rewrite nth_error_lset_other by auto.
  Qed.
  Lemma exec_fuel sched : forall s t th, nth_error (cthr s) t = Some th ->
    exists th', nth_error (cthr (cexec ok sched s)) t = Some th' /\ (cfuel th' <= cfuel th - count_occ Nat.eq_dec sched t)%nat.
  Proof.
    induction sched as [|u sched IH]; intros s t th E; simpl; [exists th; split; auto; lia|].
    destruct (Nat.eq_dec u t) as [->|N].
    - destruct (step_fuel s t E) as (th1 & E1 & H1). destruct (IH _ t th1 E1) as (th' & E' & H'). exists th'. split; auto. lia.
    - apply IH. now rewrite step_other.
  Qed.
  Lemma exec_length sched : forall s, length (cthr (cexec ok sched s)) = length (cthr s).
  Proof.
    induction sched as [|u sched IH]; intros s; simpl; auto. rewrite IH. unfold cstep. destruct (nth_error (cthr s) u) as [th|]; auto.
    destruct (ctodo th) as [|a rest]; auto. destruct (cpcs th); simpl; [destruct (0 <? cp s (dst a)); [destruct (ok (src a) (dst a))|]|]; apply length_lset.
  Qed.
  Lemma cd_finishes ts sched :
    (forall t th, nth_error ts t = Some th -> (2 * length (todo th) <= count_occ Nat.eq_dec sched t)%nat) -> cfinished (cexec ok sched (cstart p0 ts)).
  Proof.
    intros H. apply Forall_forall. intros th Hth. apply In_nth_error in Hth as [t Ht].
    assert (Hl : (t < length ts)%nat).
    { assert (Hs : (t < length (cthr (cexec ok sched (cstart p0 ts))))%nat) by (apply nth_error_Some; congruence). rewrite exec_length in Hs. simpl in Hs. now rewrite map_length in Hs. }
    destruct (nth_error ts t) as [th0|] eqn:E0; [|apply nth_error_None in E0; lia].
    assert (E1 : nth_error (cthr (cstart p0 ts)) t = Some {| ctodo := todo th0; cpcs := CTest |}) by (simpl; now rewrite nth_error_map, E0).
    destruct (exec_fuel sched _ _ E1) as (th' & E' & Hf). rewrite Ht in E'. injection E' as <-.
    specialize (H t th0 E0). unfold cfuel in Hf. simpl in Hf. destruct (ctodo th) as [|a l]; auto. exfalso. cbn [length] in Hf. destruct (todo th0) as [|b l0]; cbn [length] in *; destruct (cpcs th); lia.
  Qed.
  Lemma cd_can_finish ts : exists sched, cfinished (cexec ok sched (cstart p0 ts)).
  Proof.
    exists (flat_map (fun t => repeat t (2 * length (flat_map todo ts))) (seq 0 (length ts))). apply cd_finishes. intros t th E.
    assert (Ht : (t < length ts)%nat) by (apply nth_error_Some; congruence).
    assert (Hth : (length (todo th) <= length (flat_map todo ts))%nat).
    { clear - E. revert t E. induction ts as [|x ts IH]; intros [|t] E; try discriminate; simpl in *; rewrite app_length.
      - injection E as ->. lia.
      - specialize (IH t E). lia. }
    replace (length ts) with (t + (1 + (length ts - S t)))%nat by lia. rewrite !seq_app. rewrite !flat_map_app, !count_occ_app. simpl seq. cbn [flat_map].
    rewrite app_nil_r. simpl (0 + t)%nat. assert (Hr : forall k, count_occ Nat.eq_dec (repeat t k) t = k).
    { induction k as [|k IHk]; cbn [repeat count_occ]; auto. destruct (Nat.eq_dec t t); [|congruence]. now rewrite IHk. }
    rewrite Hr. lia.
  Qed.
End Machine.

(* -- one call ------------------------------------------------------------------------------ *)
Definition frontier_pairs (outn : nat -> list nat) (F : list nat) : list (nat * nat) := flat_map (fun u => map (pair u) (outn u)) F.
(* the edges from F into d that satisfy ok *)
Definition hits (ok : nat -> nat -> bool) (outn : nat -> list nat) (F : list nat) (d : nat) : Z :=
  Z.of_nat (length (filter (fun e => (snd e =? d)%nat && ok (fst e) (snd e)) (frontier_pairs outn F))).

Lemma cnt_pairs ok d atts : cnt ok d atts = Z.of_nat (length (filter (fun e => (snd e =? d)%nat && ok (fst e) (snd e)) (map (fun a => (src a, dst a)) atts))).
Proof.
  unfold cnt. f_equal. induction atts as [|a l IH]; simpl; auto. unfold aimed at 1. destruct ((dst a =? d)%nat && ok (src a) (dst a)); simpl; now rewrite IH.
Qed.
Lemma perm_filter_length {A} (f : A -> bool) l l' : Permutation l l' -> length (filter f l) = length (filter f l').
Proof. intros H. apply Permutation_length. now apply perm_filter. Qed.

Section Call.
  Variable ok : nat -> nat -> bool.
  Variable n : nat.
  Variables outn inn : nat -> list nat.
  Variable F : list nat.
  Variable U : vset unit.
  Variable p : nat -> Z.
  Hypothesis HU : Inv n U (plain F).
  Hypothesis Hout : forall s d, (s < n)%nat -> In d (outn s) -> (d < n)%nat.
  Hypothesis Hin : forall d, (d < n)%nat -> hits ok outn F d = Z.of_nat (length (filter (fun s => existsb (Nat.eqb s) F && ok s d) (inn d))).
  Hypothesis Hins : forall s d, (d < n)%nat -> In s (inn d) -> (s < n)%nat.
  Hypothesis Hle : forall d, 0 < p d -> hits ok outn F d <= p d.

  Definition counted_down (p' : nat -> Z) (out : vset unit) : Prop :=
    (forall d, p' d = if 0 <? p d then p d - hits ok outn F d else p d) /\
    exists l, NoDup l /\ (forall d, In d l <-> 0 < p d /\ p d = hits ok outn F d) /\ built n out (plain l).

  Lemma chunk_pairs U' B W M ebs : Inv n U' (plain F) -> (1 <= B)%nat -> (B <= W)%nat -> (W <= M)%nat -> isDense U' = false -> (exists s d, In s F /\ In d (outn s)) ->
    Permutation (map (fun a => (src a, dst a)) (flat_map todo (chunk_threads outn U' B (plain_bdeg B) ebs))) (frontier_pairs outn F).
  Proof.
    intros HU' HB HW HM Hd Hne. rewrite (@chunk_atts outn U' B W M (plain_bdeg B) ebs HB HW HM (@chunk_tot n outn F U' HU' B W M HB HW HM Hd Hne)).
    rewrite map_map.
    assert (E : map (fun e => (src (to_att U' e), dst (to_att U' e))) (all_edges (sparse_nghs outn U')) =
                flat_map (fun i => map (pair (fst (nth i (vs U') (0%nat, tt)))) (outn (fst (nth i (vs U') (0%nat, tt))))) (seq 0 (vm U'))).
    { unfold all_edges. rewrite (nghs_len outn U').
      assert (Hi : forall i, In i (seq 0 (vm U')) -> (i < vm U')%nat) by (intros i H; apply in_seq in H; lia).
      revert Hi. generalize (seq 0 (vm U')). intros L HL. induction L as [|i L IH]; cbn [flat_map map]; auto.
      rewrite map_app, IH by (intros; apply HL; now right). f_equal.
      rewrite (nghs_nth outn U') by (apply HL; now left).
      set (v := fst (nth i (vs U') (0%nat, tt))). unfold to_att. cbn [src dst].
      generalize (outn v). intros o. generalize 0%nat at 2. induction o as [|x o IHo]; intros k; simpl; auto. now rewrite IHo. }
    rewrite E. unfold frontier_pairs.
    assert (E2 : flat_map (fun i => map (pair (fst (nth i (vs U') (0%nat, tt)))) (outn (fst (nth i (vs U') (0%nat, tt))))) (seq 0 (vm U')) =
                 flat_map (fun u => map (pair u) (outn u)) (map fst (vs U'))).
    { rewrite <- (@vs_len n F U' HU' Hd). generalize (vs U'). intros l. rewrite !flat_map_concat_map. f_equal. rewrite <- (map_nth_seq (map fst l) 0%nat).
      rewrite map_map, map_length. apply map_ext. intros i. rewrite <- (map_nth fst). reflexivity. }
    rewrite E2. apply Permutation_flat_map. transitivity (map fst (plain F)); [|unfold plain; rewrite map_map, map_id; reflexivity].
    apply Permutation_map. now apply vs_perm with n.
  Qed.

  Lemma pull_count_ok isin d ins : forall q, 0 < q ->
    let c := Z.of_nat (length (filter (fun s => isin s && ok s d) ins)) in c <= q ->
    pull_count ok isin d ins q false = (q - c, q =? c).
  Proof.
    induction ins as [|s ins IH]; intros q Hq; cbn [pull_count filter length].
    - intros _. rewrite Z.sub_0_r. f_equal. symmetry. apply Z.eqb_neq. lia.
    - destruct (isin s && ok s d); cbn [length].
      + intros Hc. simpl orb. destruct (0 <? q - 1) eqn:E.
        * apply Z.ltb_lt in E. rewrite (proj2 (Z.eqb_neq (q - 1) 0)) by lia. rewrite IH by lia.
          apply f_equal2; [lia|]. destruct (Z.eqb_spec (q - 1) (Z.of_nat (length (filter (fun s0 => isin s0 && ok s0 d) ins)))), (Z.eqb_spec q (Z.of_nat (S (length (filter (fun s0 => isin s0 && ok s0 d) ins))))); lia.
        * apply Z.ltb_ge in E. assert (q = 1) as -> by lia. assert (length (filter (fun s0 => isin s0 && ok s0 d) ins) = 0)%nat as -> by lia. reflexivity.
      + intros Hc. rewrite (proj2 (Z.ltb_lt 0 q)) by lia. now apply IH.
  Qed.

  Lemma hits_out d : (n <= d)%nat -> hits ok outn F d = 0.
  Proof.
    intros Hd. unfold hits. rewrite filter_none; [reflexivity|]. intros e He. apply in_flat_map in He as (u & Hu & He). apply in_map_iff in He as (x & <- & Hx).
    simpl. destruct (Nat.eqb_spec x d) as [->|N]; auto. apply Hout in Hx; [lia|]. now apply (@F_lt' n F U HU).
  Qed.

  Theorem edgeMap_count_ok m p' out : edgeMap_count ok n outn inn m U p p' out -> counted_down p' out.
  Proof.
    intros H. destruct (@choice_ok n outn F U m None cd_flags HU) as (c & U1 & Ec & HU1 & Hc).
    inversion H as [U' E|U' E|U' B W M ebs sched o E HB HW HM s Hf Eo]; subst; rewrite Ec in E; injection E as -> ->.
    - assert (Hz : forall d, hits ok outn F d = 0).
      { intros d. unfold hits. rewrite filter_none; [reflexivity|]. intros e He. apply in_flat_map in He as (u & Hu & He). apply in_map_iff in He as (x & <- & Hx). destruct (Hc u x Hu Hx). }
      split; [intros d; rewrite Hz; match goal with |- context [if ?b then _ else _] => destruct b end; lia|]. exists []. split; [constructor|]. split.
      + intros d. rewrite Hz. split; [intros []|lia].
      + simpl. split; [split; constructor|]. now left.
    - assert (Hp : forall d, (d < n)%nat -> pull_one ok inn U' p d = (if 0 <? p d then p d - hits ok outn F d else p d, (0 <? p d) && (p d =? hits ok outn F d))).
      { intros d Hd. unfold pull_one. destruct (Z.ltb_spec 0 (p d)) as [Hq|Hq]; auto. simpl andb.
        assert (E : hits ok outn F d = Z.of_nat (length (filter (fun s => isIn tt U' s && ok s d) (inn d)))).
        { rewrite Hin by auto. f_equal. f_equal. apply filter_ext_in'. intros s Hs. f_equal. apply Hins in Hs; auto.
          apply eq_true_iff_eq. rewrite (isIn_F' F HU1 Hc Hs). rewrite existsb_exists. split.
          - intros (x & Hx & Ex). apply Nat.eqb_eq in Ex. now subst.
          - intros Hx. exists s. split; auto. apply Nat.eqb_refl. }
        rewrite pull_count_ok; auto; rewrite <- E; auto. }
      split.
      + intros d. destruct (Nat.ltb_spec d n) as [Hd|Hd]; [now rewrite Hp|]. rewrite hits_out by auto. destruct (0 <? p d); lia.
      + destruct (@dense_shows n (fun d => snd (pull_one ok inn U' p d)) (fun d => 0 < p d /\ p d = hits ok outn F d)) as (l & A & B & C & _).
        * intros d Hd. rewrite Hp by auto. simpl. rewrite andb_true_iff, Z.ltb_lt, Z.eqb_eq. reflexivity.
        * intros d [H1 H2]. destruct (Nat.lt_ge_cases d n) as [|Hd]; auto. rewrite hits_out in H2 by auto. lia.
        * exists l. auto.
    - destruct Hc as [Hd Hne]. set (ts := chunk_threads outn U' B (plain_bdeg B) ebs) in *.
      assert (Hc : forall d, cnt ok d (flat_map todo ts) = hits ok outn F d).
      { intros d. rewrite cnt_pairs. unfold hits. f_equal. apply perm_filter_length. eapply chunk_pairs; eauto. }
      assert (Hle' : forall d, 0 < p d -> cnt ok d (flat_map todo ts) <= p d) by (intros d Hq; rewrite Hc; auto).
      assert (HI : CI ok p (flat_map todo ts) s) by (apply ci_exec; auto; apply ci_start; auto).
      destruct (ci_end HI Hf) as (A & B' & C).
      split.
      + intros d. destruct (Z.ltb_spec 0 (p d)) as [Hq|Hq]; [rewrite A, Hc; auto|auto].
      + destruct (@chunk_log n outn F U' HU1 Hout B W M ebs HB HW HM Hd Hne (clog s) (ci_log HI) (ci_nd HI)) as (l & L1 & L2 & L3 & L4).
        rewrite Eo in L3. injection L3 as ->. exists l. split; auto. split; auto. intros d. rewrite L2, C, Hc. reflexivity.
  Qed.

  Theorem edgeMap_count_runs m : exists p' out, edgeMap_count ok n outn inn m U p p' out.
  Proof.
    destruct (@choice_ok n outn F U m None cd_flags HU) as (c & U1 & Ec & HU1 & Hc). destruct c.
    - do 2 eexists. eapply count_nothing; eauto.
    - do 2 eexists. eapply count_pull; eauto.
    - exfalso. revert Ec. unfold edgeMap_choice, dense_choice. destruct (vm U =? 0)%nat; [discriminate|]. simpl f_dense_forward. cbn [f_dense_only f_no_dense cd_flags].
      destruct (false || _); [discriminate|]. destruct (toSparse U); [|discriminate]. repeat (match goal with |- context [if ?b then _ else _] => destruct b end; try discriminate).
    - destruct Hc as [Hd Hne]. destruct (cd_can_finish ok p (chunk_threads outn U1 1 (plain_bdeg 1) (fun _ => 0%nat))) as [sched Hf].
      assert (HI : CI ok p (flat_map todo (chunk_threads outn U1 1 (plain_bdeg 1) (fun _ => 0%nat))) (cexec ok sched (cstart p (chunk_threads outn U1 1 (plain_bdeg 1) (fun _ => 0%nat))))).
      { apply ci_exec; [|apply ci_start; auto]. intros d Hq. rewrite cnt_pairs. rewrite (@perm_filter_length _ _ _ _ (@chunk_pairs U1 1 1 1 (fun _ => 0%nat) HU1 (le_n 1) (le_n 1) (le_n 1) Hd Hne)). now apply Hle. }
      destruct (@chunk_log n outn F U1 HU1 Hout 1 1 1 (fun _ => 0%nat) (le_n 1) (le_n 1) (le_n 1) Hd Hne _ (ci_log HI) (ci_nd HI)) as (l & L1 & L2 & L3 & L4).
      do 2 eexists. eapply count_sparse with (B := 1%nat) (W := 1%nat) (M := 1%nat); eauto.
  Qed.
End Call.

(* -- symmetric graphs ---------------------------------------------------------------------- *)
From Verif Require Import BKSpec KCModel KCSpec KCProofs.
Lemma hits_sym ok n outn F d : symmetric n outn -> NoDup F -> (forall u, In u F -> (u < n)%nat) -> (d < n)%nat ->
  hits ok outn F d = Z.of_nat (length (filter (fun s => existsb (Nat.eqb s) F && ok s d) (outn d))).
Proof.
  intros [Hs1 Hs2] Hnd HF Hd. unfold hits. f_equal.
  transitivity (list_sum (map (fun u => if ok u d then count_occ Nat.eq_dec (outn u) d else 0%nat) F)).
  - clear HF Hnd. unfold frontier_pairs. induction F as [|u F IH]; simpl; auto. rewrite filter_app, app_length, IH. f_equal.
    generalize (outn u). intros o. clear. induction o as [|x o IH]; simpl; [now destruct (ok u d)|].
    destruct (Nat.eqb_spec x d) as [->|N]; simpl.
    + destruct (ok u d); simpl; [|auto]. destruct (Nat.eq_dec d d); [|congruence]. now rewrite IH.
    + rewrite IH. destruct (ok u d); auto. destruct (Nat.eq_dec x d); [congruence|auto].
  - transitivity (list_sum (map (fun u => count_occ Nat.eq_dec (outn d) u) (filter (fun u => ok u d) F))).
    + clear Hnd. induction F as [|u F IH]; simpl; auto. rewrite IH by (intros; apply HF; now right).
      destruct (ok u d); simpl; auto. rewrite (Hs2 u d); auto. apply HF. now left.
    + rewrite count_mem by now apply NoDup_filter'. f_equal. apply filter_ext_in'. intros s _.
      unfold mem. apply eq_true_iff_eq. rewrite andb_true_iff, !existsb_exists. split.
      * intros (x & Hx & E). apply Nat.eqb_eq in E. subst x. apply filter_In in Hx as [H1 H2]. split; auto. exists s. split; auto. apply Nat.eqb_refl.
      * intros [(x & Hx & E) Ho]. apply Nat.eqb_eq in E. subst x. exists s. split; [apply filter_In; auto|apply Nat.eqb_refl].
Qed.
