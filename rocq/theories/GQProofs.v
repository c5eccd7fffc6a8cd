(* Proofs for C93. *)
From Coq Require Import Permutation.
From Verif Require Import Base ListUtil BKSpec BKProofs KCModel KCSpec KCProofs DNModel DNSpec DNProofs GOModel GOSpec GOProofs GQModel GQSpec.
Unset Strict Implicit.

Lemma split_perm D t (l : list nat) : Permutation (round_of D t l ++ rest_of D t l) l.
Proof.
  unfold round_of, rest_of. induction l as [|x l IH]; auto. cbn [filter]. destruct (Nat.leb_spec (D x) t), (Nat.ltb_spec t (D x)); try lia; cbn [app].
  - now constructor.
  - rewrite <- Permutation_middle. now constructor.
Qed.
Lemma filter_map_len (D : nat -> nat) t l : length (filter (fun x => x <? t) (map D l)) = length (filter (fun v => D v <? t) l).
Proof. induction l as [|x l IH]; auto. cbn [map filter]. destruct (D x <? t); cbn [length]; auto. Qed.
Lemma filter_ext_len (f g : nat -> bool) l : (forall x, In x l -> f x = g x) -> length (filter f l) = length (filter g l).
Proof. intros H. f_equal. now apply filter_ext_in. Qed.
Lemma perm_filter_len (f : nat -> bool) l l' : Permutation l l' -> length (filter f l) = length (filter f l').
Proof. induction 1; cbn [filter]; auto; try congruence; repeat match goal with |- context[f ?y] => destruct (f y) end; cbn [length]; auto. Qed.

Section Graph.
  Variable n : nat.
  Variable outn : nat -> list nat.
  Hypothesis Hsym : symmetric n outn.
  Variable null : nat.
  Hypothesis Hnull : forall v, v < n -> length (outn v) <= null.
  Variable sel : list nat -> nat -> nat -> Prop.
  Variables ns b : nat.
  Hypothesis Hsel : selects ns b sel.

  Lemma sel_round D t active : sel (map D active) ns t -> round_of D t active <> [].
  Proof.
    intros H. destruct (Hsel H) as [Hin _]. apply in_map_iff in Hin as (v & E & Hv). intros X.
    assert (Y : In v (round_of D t active)) by (apply filter_In; split; auto; apply Nat.leb_le; lia). rewrite X in Y. destruct Y.
  Qed.
  Lemma rest_shorter D t active : round_of D t active <> [] -> length (rest_of D t active) < length active.
  Proof.
    intros H. rewrite <- (Permutation_length (split_perm D t active)), app_length. destruct (round_of D t active); [congruence|]. cbn [length]. lia.
  Qed.
  Definition qinv (active : list nat) (D : nat -> nat) : Prop := NoDup active /\ (forall v, In v active -> v < n) /\ forall v, v < n -> D v = edges_into outn active v.
  Lemma qinv_start : qinv (seq 0 n) (fun v => length (outn v)).
  Proof.
    split; [apply seq_NoDup|]. split; [intros v Hv; apply in_seq in Hv; lia|]. intros v Hv. apply (proj2 (ginv_start Hsym) v Hv).
  Qed.
  Lemma qinv_round active D t res : qinv active D -> counted (flat_map outn (round_of D t active)) res -> qinv (rest_of D t active) (drop null D res).
  Proof.
    intros (ND & Hn & HD) Hc. split; [now apply NoDup_filter|]. split; [intros v Hv; apply filter_In in Hv; now apply Hn|]. intros v Hv.
    pose proof (split_perm D t active) as P. apply (@drop_dg n outn Hsym null Hnull D (round_of D t active) (rest_of D t active) res); auto.
    - eapply Permutation_NoDup; [symmetry; exact P|auto].
    - intros w Hw. apply Hn. eapply Permutation_in; eauto.
    - intros w Hw. rewrite HD by auto. apply dg_same. intros x. split; apply Permutation_in; [symmetry; exact P|exact P].
  Qed.
  Lemma gq_ok active D ret o : gq_loop outn null sel ns active D ret o -> qinv active D ->
    forall out, o = Some out -> exists new, out = ret ++ new /\ Permutation new active /\ in_rounds outn b new.
  Proof.
    induction 1 as [D ret|active D ret Ha Hl|active D ret t res o Ha Hl Hs Hc Hr IH]; intros HI out E.
    - exists []. rewrite app_nil_r. split; [congruence|]. split; auto. constructor.
    - discriminate.
    - destruct (IH (qinv_round HI Hc) out E) as (new & E1 & P & R). exists (round_of D t active ++ new).
      assert (P' : Permutation (round_of D t active ++ new) active) by (rewrite P; apply split_perm).
      destruct HI as (ND & Hn & HD).
      assert (HE : forall v, In v active -> edges_into outn (round_of D t active ++ new) v = D v).
      { intros v Hv. rewrite HD by auto. apply dg_same. intros x. split; apply Permutation_in; [exact P'|symmetry; exact P']. }
      split; [now rewrite E1, app_assoc|]. split; auto. apply a_round with (t := t); auto.
      + eapply sel_round; eauto.
      + intros v Hv. apply filter_In in Hv as [Hv L]. apply Nat.leb_le in L. now rewrite HE.
      + intros v Hv. apply (Permutation_in _ P) in Hv. apply filter_In in Hv as [Hv L]. apply Nat.ltb_lt in L. now rewrite HE.
      + destruct (Hsel Hs) as [_ Hb]. rewrite filter_map_len in Hb. rewrite (perm_filter_len _ P').
        erewrite filter_ext_len; [exact Hb|]. intros x Hx. cbv beta. now rewrite HE.
  Qed.
  Lemma gq_runs : always_selects sel -> forall k active D ret, length active <= k -> exists o, gq_loop outn null sel ns active D ret o.
  Proof.
    intros Ht. induction k as [|k IH]; intros active D ret Hk.
    - destruct active; [|cbn in Hk; lia]. eexists. constructor.
    - destruct active as [|x l] eqn:Ea; [eexists; constructor|]. rewrite <- Ea in *. assert (Hne : active <> []) by (rewrite Ea; discriminate).
      destruct (Nat.le_gt_cases (length active) ns) as [C|C]; [exists None; now apply gq_range|].
      destruct (Ht (map D active) ns) as (t & Hs); [now rewrite map_length|]. destruct (KCProofs.counted_exists (flat_map outn (round_of D t active))) as (res & Hres).
      pose proof (rest_shorter (sel_round Hs)). destruct (IH (rest_of D t active) (drop null D res) (ret ++ round_of D t active)) as (o & Ho); [lia|].
      exists o. eapply gq_round; eauto.
  Qed.
  (* every run is short *)
  Lemma gq_last active D ret o : gq_loop outn null sel ns active D ret o -> active <> [] -> forall out, o = Some out ->
    exists A L, out = A ++ L /\ ns < length L /\ (length L <= length active).
  Proof.
    induction 1 as [D ret|active D ret Ha Hl|active D ret t res o Ha Hl Hs Hc Hr IH]; intros Hne out E; [congruence|discriminate|].
    destruct (rest_of D t active) as [|x l] eqn:Er.
    - inversion Hr; subst; try congruence; try (cbn in *; lia). exists ret, (round_of D t active). pose proof (Permutation_length (split_perm D t active)) as X.
      rewrite Er, app_nil_r in X. split; [congruence|]. lia.
    - rewrite <- Er in *. destruct IH with (out := out) as (A & L & E1 & H1 & H2); auto; [rewrite Er; discriminate|]. exists A, L. split; auto. split; auto.
      pose proof (rest_shorter (sel_round Hs)). lia.
  Qed.
End Graph.

Lemma bound_round n outn d b A R t : symmetric n outn -> degenerate n outn d -> NoDup (A ++ R) -> (forall v, In v (A ++ R) -> v < n) ->
  length (filter (fun v => edges_into outn (A ++ R) v <? t) (A ++ R)) <= b -> t * (length (A ++ R) - b) <= 2 * d * length (A ++ R).
Proof.
  intros Hs Hd ND Hn Hb. pose proof (@degen_sum n outn Hs d Hd (A ++ R) ND Hn) as B. rewrite inside_dg in B. etransitivity; [|exact B]. clear B.
  change (dg outn (A ++ R)) with (edges_into outn (A ++ R)). revert Hb. generalize (edges_into outn (A ++ R)) as f. generalize (A ++ R) as l. clear. intros l f Hb.
  assert (H : t * length l <= list_sum (map f l) + t * length (filter (fun v => f v <? t) l)).
  { clear Hb. induction l as [|x l IH]; [cbn; lia|]. cbn [map filter length]. change (list_sum (f x :: map f l)) with (f x + list_sum (map f l)). destruct (Nat.ltb_spec (f x) t); cbn [length]; nia. }
  nia.
Qed.
Lemma rounds_bound n outn d b : symmetric n outn -> degenerate n outn d -> forall out, in_rounds outn b out -> NoDup out -> (forall v, In v out -> v < n) ->
  forall i, i < length out -> exists q, q <= i /\ edges_into outn (skipn q out) (nth i out 0) * (length out - q - b) <= 2 * d * (length out - q).
Proof.
  intros Hs Hd out. induction 1 as [|A R t Ha HA HR Hb HH IH]; intros ND Hn i Hi; [cbn in Hi; lia|].
  destruct (Nat.lt_ge_cases i (length A)) as [C|C].
  - exists 0. split; [lia|]. cbn [skipn]. rewrite !Nat.sub_0_r. pose proof (bound_round Hs Hd ND Hn Hb) as X.
    assert (Y : edges_into outn (A ++ R) (nth i (A ++ R) 0) <= t) by (apply HA; rewrite app_nth1 by auto; now apply nth_In).
    etransitivity; [apply Nat.mul_le_mono_r; exact Y|exact X].
  - rewrite app_length in Hi. apply NoDup_app_iff in ND as (_ & ND & _). destruct (IH ND (fun v Hv => Hn v (in_or_app _ _ _ (or_intror Hv))) (i - length A)) as (q & Q1 & Q2); [lia|].
    exists (length A + q). split; [lia|]. rewrite skipn_app, skipn_all2 by lia. cbn [app]. replace (length A + q - length A) with q by lia.
    rewrite app_nth2 by lia. rewrite app_length. replace (length A + length R - (length A + q)) with (length R - q) by lia. exact Q2.
Qed.

(* the exact selection *)
Lemma exact_selects k : selects k k exact_kth.
Proof. intros vals t (H1 & H2 & _). auto. Qed.
Lemma exact_total : always_selects exact_kth.
Proof.
  intros vals k Hk. destruct vals as [|a vals'] eqn:Ev; [cbn in Hk; lia|]. rewrite <- Ev in *.
  (* the least t in vals with more than k values at most t *)
  assert (X : forall m, (exists t, In t vals /\ t <= m /\ k < length (filter (fun x => x <=? t) vals)) ->
              exists t, In t vals /\ k < length (filter (fun x => x <=? t) vals) /\ forall s, In s vals -> s < t -> length (filter (fun x => x <=? s) vals) <= k).
  { induction m as [m IH] using (well_founded_induction lt_wf). intros (t & T1 & T2 & T3).
    destruct (existsb (fun s => (s <? t) && (k <? length (filter (fun x => x <=? s) vals))) vals) eqn:E.
    - apply existsb_exists in E as (s & S1 & S2). apply andb_true_iff in S2 as [S2 S3]. apply Nat.ltb_lt in S2, S3. apply (IH s); [lia|]. exists s. auto.
    - exists t. split; auto. split; auto. intros s Hs Hst. destruct (Nat.le_gt_cases (length (filter (fun x => x <=? s) vals)) k); auto. exfalso.
      assert (Y : existsb (fun s => (s <? t) && (k <? length (filter (fun x => x <=? s) vals))) vals = true).
      { apply existsb_exists. exists s. split; auto. apply andb_true_iff. split; now apply Nat.ltb_lt. }
      congruence. }
  assert (Hmax : exists t, In t vals /\ forall x, In x vals -> x <= t).
  { rewrite Ev. clear. induction vals' as [|y l IH] in a |- *; [exists a; split; [now left|intros x [<-|[]]; lia]|].
    destruct (IH y) as (t & T1 & T2). destruct (Nat.le_gt_cases a t) as [C|C].
    - exists t. split; [now right|]. intros x [<-|Hx]; [lia|now apply T2].
    - exists a. split; [now left|]. intros x [<-|Hx]; [lia|]. apply T2 in Hx. lia. }
  destruct Hmax as (mx & M1 & M2). destruct (X mx) as (t & T1 & T2 & T3).
  { exists mx. split; auto. split; auto. rewrite filter_all; auto. intros x Hx. apply Nat.leb_le. auto. }
  exists t. split; auto. split; auto.
  (* the values below t are those at most the greatest value below t *)
  destruct (filter (fun x => x <? t) vals) as [|c l] eqn:Ef; [cbn; lia|]. rewrite <- Ef.
  assert (Hm2 : exists s, In s (c :: l) /\ forall x, In x (c :: l) -> x <= s).
  { clear. induction l as [|y l IH] in c |- *; [exists c; split; [now left|intros x [<-|[]]; lia]|].
    destruct (IH y) as (s & S1 & S2). destruct (Nat.le_gt_cases c s) as [C|C].
    - exists s. split; [now right|]. intros x [<-|Hx]; [lia|now apply S2].
    - exists c. split; [now left|]. intros x [<-|Hx]; [lia|]. apply S2 in Hx. lia. }
  destruct Hm2 as (s & S1 & S2). rewrite <- Ef in S1. apply filter_In in S1 as [S0 S1]. apply Nat.ltb_lt in S1. specialize (T3 s S0 S1).
  erewrite filter_ext_len; [exact T3|]. intros x Hx. cbv beta. destruct (Nat.leb_spec x s), (Nat.ltb_spec x t); auto; try lia.
  exfalso. assert (Y : In x (c :: l)) by (rewrite <- Ef; apply filter_In; split; auto; now apply Nat.ltb_lt). apply S2 in Y. lia.
Qed.
