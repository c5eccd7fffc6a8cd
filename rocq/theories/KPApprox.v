(* Clique peeling: ApproxPeel. *)
From Coq Require Import Permutation Sorted.
From Verif Require Import Base ListUtil ISModel ISSpec BKModel BKSpec KCModel CQModel CQSpec CQRec CQSetup CQCount CQCliques CQFinal DNModel KPModel KPSpec KPCount KPPeel.
From Verif Require DNProofs KCProofs.
Unset Strict Implicit.

Lemma sum_lt c (f : nat -> nat) l : l <> [] -> (forall x, In x l -> c < f x) -> c * length l < list_sum (map f l).
Proof.
  intros Hl H. destruct l as [|a l]; [congruence|]. assert (X : S c * length (a :: l) <= list_sum (map f (a :: l))); [|cbn [length] in *; nia].
  apply DNProofs.sum_map_ge. intros x Hx. specialize (H x Hx). lia.
Qed.
Lemma sum_swap {A} (f : nat -> A -> bool) rem (T : list A) :
  list_sum (map (fun v => length (filter (f v) T)) rem) = list_sum (map (fun c => length (filter (fun v => f v c) rem)) T).
Proof.
  induction T as [|c T IH]; [apply list_sum_map_0; reflexivity|]. cbn [map list_sum fold_right]. fold (list_sum (map (fun c => length (filter (fun v => f v c) rem)) T)). rewrite <- IH. clear.
  rewrite (map_ext (fun v => length (filter (f v) (c :: T))) (fun v => (if f v c then 1 else 0) + length (filter (f v) T))) by (intros v; cbn [filter]; destruct (f v c); reflexivity).
  induction rem as [|v rem IH]; [reflexivity|]. cbn [map]. change (list_sum (?a :: ?l)) with (a + list_sum l). rewrite IH. cbn [filter]. destruct (f v c); cbn [length]; lia.
Qed.

Section Approx.
  Variables half wide n : nat.
  Variable outn : nat -> list nat.
  Hypothesis HG : sgraph n outn.
  Variable rank : nat -> nat.
  Hypothesis HR : is_rank n rank.
  Variable K : nat.
  Hypothesis HK : 3 <= K <= half + 1.
  Variable label : bool.
  Notation cnt := (cliques_at n outn K).
  Notation size := (size n).
  Notation inside := (inside n outn K).

  Lemma clique_len c : In c (cliques n outn K) -> length c = K /\ NoDup c /\ forall v, In v c -> v < n.
  Proof.
    intros H. apply filter_In in H as [H _]. apply subsets_iff in H as (A & B & C); [|apply seq_inc]. split; auto. split; [now apply inc_nodup|]. intros v Hv. apply C, in_seq in Hv. lia.
  Qed.
  Lemma sum_cnt rem : NoDup rem -> list_sum (map (cnt (has rem)) rem) = K * inside (has rem).
  Proof.
    intros Hnd. unfold cliques_at, KPSpec.inside. rewrite sum_swap. pose proof clique_len as HC. induction (cliques n outn K) as [|c T IH]; [simpl; lia|].
    cbn [map filter]. change (list_sum (?a :: ?l)) with (a + list_sum l). rewrite IH by (intros d Hd; apply HC; now right). destruct (HC c (or_introl eq_refl)) as (E & ND & _).
    destruct (forallb (has rem) c) eqn:F.
    - rewrite (filter_ext _ (has c)) by (intros v; apply Bool.andb_true_r). cbn [length]. enough (X : length (filter (has c) rem) = K) by lia. rewrite <- E. apply Permutation_length, NoDup_Permutation; auto; [now apply NoDup_filter|].
      intros v. rewrite filter_In, has_In. rewrite forallb_forall in F. split; [tauto|]. intros Hv. split; auto. apply has_In. auto.
    - rewrite filter_none; [reflexivity|]. intros v _. apply Bool.andb_false_r.
  Qed.
  Definition without (T : nat -> bool) (v : nat) : nat -> bool := fun w => T w && negb (w =? v).
  Lemma size_without T v : v < n -> T v = true -> size T = S (size (without T v)).
  Proof.
    intros Hv HT. unfold KPSpec.size. rewrite (KCProofs.filter_split (fun w => w =? v) T) by (intros w _ X; apply Nat.eqb_eq in X; now subst). unfold without.
    assert (E : Permutation (filter (fun w => w =? v) (seq 0 n)) [v]).
    { apply NoDup_Permutation; [apply NoDup_filter, seq_NoDup|repeat constructor; intros []|]. intros w. rewrite filter_In, Nat.eqb_eq, in_seq. simpl. split; [intros [_ ->]; auto|]. intros [<-|[]]. split; auto. lia. }
    rewrite (Permutation_length E). reflexivity.
  Qed.
  Lemma inside_without T v : inside T = cnt T v + inside (without T v).
  Proof.
    unfold KPSpec.inside, cliques_at. induction (cliques n outn K) as [|c cs IH]; auto. cbn [filter]. 
    assert (E : forallb (without T v) c = forallb T c && negb (has c v)).
    { clear. induction c as [|x c IH]; auto. cbn [forallb]. rewrite IH, has_cons. unfold without. rewrite (Nat.eqb_sym v x). destruct (T x), (x =? v), (forallb T c), (has c v); reflexivity. }
    rewrite E. destruct (forallb T c), (has c v); cbn [andb negb length]; lia.
  Qed.
  (* a dense set contains one where every member is in many cliques *)
  Lemma dense_core S : (exists v, v < n /\ S v = true) -> exists T, (forall v, T v = true -> S v = true) /\ (exists v, v < n /\ T v = true) /\
    forall v, v < n -> T v = true -> inside S <= cnt T v * size S.
  Proof.
    intros Hne. set (c := inside S). set (s := size S).
    assert (HM : forall m T, size T <= m -> (forall v, T v = true -> S v = true) -> (exists v, v < n /\ T v = true) -> c * size T <= inside T * s ->
      exists T', (forall v, T' v = true -> S v = true) /\ (exists v, v < n /\ T' v = true) /\ forall v, v < n -> T' v = true -> c <= cnt T' v * s).
    { induction m as [|m IH]; intros T Hm HS (v0 & Hv0 & HT0) Hd.
      - rewrite (size_without Hv0 HT0) in Hm. lia.
      - destruct (existsb (fun v => T v && (cnt T v * s <? c)) (seq 0 n)) eqn:E.
        + apply existsb_exists in E as (v & Hv & E). apply in_seq in Hv. apply Bool.andb_true_iff in E as [HTv E]. apply Nat.ltb_lt in E. assert (Hvn : v < n) by lia.
          pose proof (size_without Hvn HTv) as E1. pose proof (inside_without T v) as E2. rewrite E1 in Hm, Hd. rewrite E2 in Hd. apply (IH (without T v)); [lia| | |nia].
          * intros w Hw. apply HS. unfold without in Hw. apply Bool.andb_true_iff in Hw. tauto.
          * destruct (existsb (without T v) (seq 0 n)) eqn:F.
            { apply existsb_exists in F as (w & Hw & F). apply in_seq in Hw. exists w. split; auto. lia. }
            exfalso. assert (Hall : forall w, w < n -> without T v w = false).
            { intros w Hw. destruct (without T v w) eqn:G; auto. assert (existsb (without T v) (seq 0 n) = true); [|congruence]. apply existsb_exists. exists w. split; auto. apply in_seq. lia. }
            assert (I0 : inside (without T v) = 0).
            { unfold KPSpec.inside. rewrite filter_none; auto. intros d Hd'. destruct (clique_len Hd') as (L & _ & Hlt). destruct d as [|x d]; [simpl in L; lia|]. cbn [forallb]. rewrite Hall; auto. apply Hlt. now left. }
            nia.
        + exists T. split; auto. split; [eauto|]. intros v Hv HTv. destruct (Nat.le_gt_cases c (cnt T v * s)) as [|X]; auto. exfalso.
          assert (Y : existsb (fun v => T v && (cnt T v * s <? c)) (seq 0 n) = true); [|congruence]. apply existsb_exists. exists v. split; [apply in_seq; lia|]. rewrite HTv. now apply Nat.ltb_lt. }
    apply (HM (size S) S); auto.
  Qed.

  Variables p q : nat.
  Hypothesis Hq : 0 < q.
  Variable num : nat.
  Hypothesis Hnum : num = length (cliques n outn K).
  Variable start : nat -> nat.
  Hypothesis Hstart : forall v, v < n -> start v = cnt (fun w => w <? n) v.
  Hypothesis Hwide : forall v, v < n -> start v <= wide.
  Notation loop := (approx_loop half wide n outn K rank label p q num start).

  Record AI (r : nat) (rem : list nat) (D st : nat -> nat) (best : nat * nat) : Prop := {
    a_nd : NoDup rem;
    a_lt : forall v, In v rem -> v < n;
    a_D : rem <> [] -> forall v, v < n -> D v = if has rem v then cnt (has rem) v else 0;
    a_st : rem <> [] -> forall v, st v = if (v <? n) && negb (has rem v) then 2 else 0;
    a_0 : r = 0 -> rem = seq 0 n;
    a_len : r + length rem <= n;
    a_pos : 0 < snd best;
    a_lo : fst best = 0 \/ exists S, (exists v, v < n /\ S v = true) /\ fst best * size S <= K * inside S * snd best;
    a_hi : forall T c s, (exists v, v < n /\ T v = true) -> (forall v, v < n -> T v = true -> c <= cnt T v * s) ->
      (forall v, v < n -> T v = true -> In v rem) \/ c * q * snd best <= K * (q + p) * fst best * s }.

  Lemma has_seq v : has (seq 0 n) v = (v <? n).
  Proof. apply Bool.eq_iff_eq_true. rewrite has_In, in_seq, Nat.ltb_lt. lia. Qed.
  Lemma inside_all : inside (has (seq 0 n)) = num.
  Proof. unfold KPSpec.inside. rewrite filter_all; auto. intros c Hc. destruct (clique_len Hc) as (_ & _ & H). apply forallb_forall. intros v Hv. rewrite has_seq. apply Nat.ltb_lt. auto. Qed.
  Lemma start_ai : AI 0 (seq 0 n) start (fun _ => 0) (0, 1).
  Proof.
    split; cbn [fst snd]; auto.
    - apply seq_NoDup.
    - intros v Hv. apply in_seq in Hv. lia.
    - intros _ v Hv. rewrite has_seq, (proj2 (Nat.ltb_lt _ _) Hv), Hstart by auto. apply cnt_ext. intros w _. now rewrite has_seq.
    - intros _ v. rewrite has_seq. destruct (v <? n); reflexivity.
    - rewrite seq_length. lia.
    - intros T c s _ _. left. intros v Hv _. apply in_seq. lia.
  Qed.
  Section Step.
    Variables (r : nat) (rem : list nat) (D st : nat -> nat) (best : nat * nat).
    Hypothesis HI : AI r rem D st best.
    Hypothesis Hne : rem <> [].
    Notation E := (remaining_edges num r rem D).
    Notation dr := (drop K p q num r rem D).
    Notation kept := (filter (fun v => negb (dr v)) rem).
    Lemma D_in v : In v rem -> D v = cnt (has rem) v.
    Proof. intros Hv. rewrite (a_D HI Hne (a_lt HI Hv)). now rewrite (proj2 (has_In rem v) Hv). Qed.
    Lemma E_val : E = if r =? 0 then inside (has rem) else K * inside (has rem).
    Proof.
      unfold remaining_edges. destruct (Nat.eqb_spec r 0) as [E0|].
      - rewrite (a_0 HI E0). now rewrite inside_all.
      - rewrite <- sum_cnt by apply (a_nd HI). f_equal. apply map_ext_in. intros v Hv. now apply D_in.
    Qed.
    Lemma some_dropped : exists v, In v rem /\ dr v = true.
    Proof.
      destruct (existsb dr rem) eqn:X; [apply existsb_exists in X; exact X|]. exfalso.
      assert (H : forall v, In v rem -> K * (q + p) * E < D v * (q * length rem)).
      { intros v Hv. destruct (dr v) eqn:Y; [assert (existsb dr rem = true) by (apply existsb_exists; eauto); congruence|]. unfold drop in Y. now apply Nat.leb_gt in Y. }
      pose proof (sum_lt Hne H) as HS. assert (M : list_sum (map (fun v => D v * (q * length rem)) rem) = list_sum (map D rem) * (q * length rem)).
      { clear. induction rem as [|a l IH]; auto. generalize dependent (q * length (a :: l)). intros x. 
        assert (Y : forall l, list_sum (map (fun v => D v * x) l) = list_sum (map D l) * x). { induction l0 as [|b l0 IHl]; auto. cbn [map]. change (list_sum (?a :: ?l)) with (a + list_sum l). rewrite IHl. lia. }
        apply Y. }
      rewrite M in HS. assert (HD : list_sum (map D rem) = K * inside (has rem)) by (rewrite <- sum_cnt by apply (a_nd HI); f_equal; apply map_ext_in; intros v Hv; now apply D_in).
      rewrite HD in HS. assert (HE : inside (has rem) <= E) by (rewrite E_val; destruct (r =? 0); nia).
      assert (0 < length rem) by (destruct rem; [congruence|simpl; lia]). set (I := inside (has rem)) in *. set (l := length rem) in *.
      assert (K * I * q <= K * (q + p) * E).
      { apply Nat.le_trans with (K * (q + p) * I); [|apply Nat.mul_le_mono_l; exact HE]. replace (K * I * q) with (K * q * I) by lia. apply Nat.mul_le_mono_r, Nat.mul_le_mono_l. lia. }
      replace (K * I * (q * l)) with (K * I * q * l) in HS by lia. apply Nat.mul_lt_mono_pos_r in HS; lia.
    Qed.
    Lemma kept_shorter : S (length kept) <= length rem.
    Proof.
      destruct some_dropped as (v & Hv & Hd). clear -Hv Hd. generalize dr Hd. clear Hd. intros f Hd. induction rem as [|a l IH]; [destruct Hv|]. cbn [filter length]. destruct Hv as [->|Hv].
      - rewrite Hd. cbn [negb]. pose proof (filter_len_le (fun v => negb (f v)) l). lia.
      - specialize (IH Hv). destruct (f a); cbn [negb length]; lia.
    Qed.
    Notation cur := (E, length rem).
    Definition best2 : nat * nat := if frac_lt best cur then cur else best.
    Lemma rem_pos : 0 < length rem.
    Proof. destruct rem; [congruence|simpl; lia]. Qed.
    Lemma best2_pos : 0 < snd best2.
    Proof. unfold best2. destruct (frac_lt best cur); [apply rem_pos|apply (a_pos HI)]. Qed.
    Lemma best2_best : fst best * snd best2 <= fst best2 * snd best.
    Proof. unfold best2, frac_lt. destruct (Nat.ltb_spec (fst best * snd cur) (fst cur * snd best)); lia. Qed.
    Lemma best2_cur : E * snd best2 <= fst best2 * length rem.
    Proof. unfold best2, frac_lt. destruct (Nat.ltb_spec (fst best * snd cur) (fst cur * snd best)); cbn [fst snd] in *; lia. Qed.
    Lemma best2_lo : fst best2 = 0 \/ exists S, (exists v, v < n /\ S v = true) /\ fst best2 * size S <= K * inside S * snd best2.
    Proof.
      unfold best2. destruct (frac_lt best cur); [|apply (a_lo HI)]. right. exists (has rem). split.
      - destruct rem as [|a l]; [congruence|]. exists a. split; [apply (a_lt HI); now left|]. apply has_In. now left.
      - cbn [fst snd]. assert (Es : size (has rem) = length rem).
        { unfold KPSpec.size. apply Permutation_length, NoDup_Permutation; [apply NoDup_filter, seq_NoDup|apply (a_nd HI)|]. intros v. rewrite filter_In, in_seq, has_In. split; [tauto|]. intros Hv. pose proof (a_lt HI Hv). split; auto. lia. }
        rewrite Es, E_val. apply Nat.mul_le_mono_r. destruct (r =? 0); nia.
    Qed.
    Lemma best2_hi T c s : (exists v, v < n /\ T v = true) -> (forall v, v < n -> T v = true -> c <= cnt T v * s) ->
      (forall v, v < n -> T v = true -> In v kept) \/ c * q * snd best2 <= K * (q + p) * fst best2 * s.
    Proof.
      intros HT Hc. pose proof best2_pos as P2. pose proof rem_pos as Pr. destruct (a_hi HI HT Hc) as [Hin|Hb].
      - destruct (existsb (fun v => T v && dr v) rem) eqn:X.
        + right. apply existsb_exists in X as (v & Hv & X). apply Bool.andb_true_iff in X as [HTv Hd]. unfold drop in Hd. apply Nat.leb_le in Hd. rewrite (D_in Hv) in Hd.
          assert (M : cnt T v <= cnt (has rem) v) by (apply cnt_mono; intros w Hw HTw; apply has_In; auto).
          pose proof (Hc v (a_lt HI Hv) HTv) as C1. pose proof best2_cur as C2. set (l := length rem) in *.
          assert (A : c * q * l <= K * (q + p) * E * s).
          { apply Nat.le_trans with (cnt (has rem) v * (q * l) * s); [|apply Nat.mul_le_mono_r; exact Hd]. apply Nat.le_trans with (cnt (has rem) v * s * (q * l)); [|lia]. rewrite <- Nat.mul_assoc. apply Nat.mul_le_mono_r. nia. }
          apply Nat.mul_le_mono_pos_r with (p := l); auto. apply Nat.le_trans with (K * (q + p) * E * s * snd best2); [rewrite <- (Nat.mul_assoc _ _ l), (Nat.mul_comm (snd best2)), Nat.mul_assoc; apply Nat.mul_le_mono_r; exact A|].
          replace (K * (q + p) * E * s * snd best2) with (K * (q + p) * s * (E * snd best2)) by lia. replace (K * (q + p) * fst best2 * s * l) with (K * (q + p) * s * (fst best2 * l)) by lia. apply Nat.mul_le_mono_l. exact C2.
        + left. intros v Hv HTv. apply filter_In. split; auto. destruct (dr v) eqn:Y; auto. assert (existsb (fun v => T v && dr v) rem = true); [|congruence]. apply existsb_exists. exists v. rewrite HTv, Y. auto.
      - right. pose proof best2_best as C2. pose proof (a_pos HI) as P1. apply Nat.mul_le_mono_pos_r with (p := snd best); auto.
        apply Nat.le_trans with (K * (q + p) * fst best * s * snd best2); [rewrite <- (Nat.mul_assoc _ _ (snd best)), (Nat.mul_comm (snd best2)), Nat.mul_assoc; apply Nat.mul_le_mono_r; exact Hb|].
        replace (K * (q + p) * fst best * s * snd best2) with (K * (q + p) * s * (fst best * snd best2)) by lia. replace (K * (q + p) * fst best2 * s * snd best) with (K * (q + p) * s * (fst best2 * snd best)) by lia. apply Nat.mul_le_mono_l. exact C2.
    Qed.
    Lemma has_kept v : has kept v = has rem v && negb (has (filter dr rem) v).
    Proof.
      apply Bool.eq_iff_eq_true. rewrite Bool.andb_true_iff, Bool.negb_true_iff, has_false, !has_In, !filter_In. destruct (dr v); cbn [negb]; intuition congruence.
    Qed.
    Lemma round_ai cl : calls_of half outn K rank label (set_all st (filter dr rem) 1) (filter dr rem) cl ->
      AI (S r) kept (set_all (fun v => usub wide (D v) (total cl v)) (filter dr rem) 0) (set_all st (filter dr rem) 2) best2.
    Proof.
      intros Hcl. set (L := filter dr rem) in *.
      assert (HL : forall v, In v L -> has rem v = true) by (intros v Hv; apply filter_In in Hv; apply has_In; tauto).
      assert (HLn : NoDup L) by apply NoDup_filter, (a_nd HI).
      assert (Hdue : forall v, has rem v = true -> v < n) by (intros v Hv; apply (a_lt HI); now apply has_In).
      assert (HLt : forall v, In v L -> v < n) by auto.
      pose proof (totals HG HR HK Hdue (a_st HI Hne) HL HLn (calls_total HG HK HLt Hcl)) as HT.
      split.
      - apply NoDup_filter, (a_nd HI).
      - intros v Hv. apply filter_In in Hv. apply (a_lt HI). tauto.
      - intros _ v Hv. destruct (HT v Hv) as [A B]. rewrite set_all_spec, has_kept. fold L. destruct (has L v) eqn:EL; [now rewrite Bool.andb_false_r|]. cbn [negb]. rewrite Bool.andb_true_r.
        apply has_false in EL. specialize (A EL). rewrite (a_D HI Hne Hv). destruct (has rem v) eqn:Er.
        + assert (W : cnt (has rem) v <= wide). { apply Nat.le_trans with (start v); auto. rewrite Hstart by auto. apply cnt_mono. intros w Hw _. now apply Nat.ltb_lt. }
          rewrite usub_wide by lia. rewrite (@cnt_ext n outn K (has kept) (fun v => has rem v && negb (mem v L))); [lia|]. intros w _. apply has_kept.
        + assert (Z : cnt (has rem) v = 0).
          { unfold cliques_at. rewrite filter_none; auto. intros d _. destruct (has d v) eqn:Ed; auto. cbn [andb]. destruct (forallb (has rem) d) eqn:F; auto. rewrite forallb_forall in F. apply has_In, F in Ed. congruence. }
          rewrite usub_wide by lia. lia.
      - intros _ v. rewrite set_all_spec, has_kept, (a_st HI Hne v). fold L. destruct (has L v) eqn:EL.
        + rewrite Bool.andb_false_r. cbn [negb]. rewrite Bool.andb_true_r. apply has_In, HLt, Nat.ltb_lt in EL. now rewrite EL.
        + cbn [negb]. now rewrite Bool.andb_true_r.
      - discriminate.
      - pose proof kept_shorter. pose proof (a_len HI). lia.
      - apply best2_pos.
      - apply best2_lo.
      - apply best2_hi.
    Qed.
    Lemma last_ai : kept = [] -> AI (S r) [] D st best2.
    Proof.
      intros Ek. split; try congruence; try discriminate.
      - constructor.
      - intros v [].
      - pose proof kept_shorter. pose proof (a_len HI). simpl. lia.
      - apply best2_pos.
      - apply best2_lo.
      - intros T c s HT Hc. pose proof (best2_hi HT Hc) as X. rewrite Ek in X. exact X.
    Qed.
  End Step.
  Lemma loop_ai r rem D st best : loop r rem D st best -> AI r rem D st best.
  Proof.
    induction 1 as [|r rem D st best cl H IH Hne cur L kept Hr Hcl|r rem D st best H IH Hne cur Hk Hr].
    - apply start_ai.
    - exact (round_ai IH Hne Hcl).
    - exact (last_ai IH Hne Hk).
  Qed.
  Lemma loop_next r rem D st best : loop r rem D st best -> rem <> [] -> exists rem' D' st' best', loop (S r) rem' D' st' best'.
  Proof.
    intros H Hne. destruct (Nat.eq_dec r 0) as [E0|E0]; [|destruct (filter (fun v => negb (drop K p q num r rem D v)) rem) as [|a l] eqn:Ek].
    - destruct (@calls_ex half outn rank K label (set_all st (filter (drop K p q num r rem D) rem) 1) (filter (drop K p q num r rem D) rem)) as (cl & Hcl).
      do 4 eexists. eapply approx_round; [exact H|exact Hne|now left|exact Hcl].
    - do 4 eexists. eapply approx_last; [exact H|exact Hne|exact Ek|exact E0].
    - destruct (@calls_ex half outn rank K label (set_all st (filter (drop K p q num r rem D) rem) 1) (filter (drop K p q num r rem D) rem)) as (cl & Hcl).
      do 4 eexists. eapply approx_round; [exact H|exact Hne|right; rewrite Ek; discriminate|exact Hcl].
  Qed.
  Lemma approx_ends : exists best, approx_returns half wide n outn K rank label p q num start best.
  Proof.
    assert (X : forall m r rem D st best, loop r rem D st best -> n <= r + m -> exists best, approx_returns half wide n outn K rank label p q num start best).
    { induction m as [|m IH]; intros r rem D st best H Hm; pose proof (a_len (loop_ai H)) as Hl.
      - destruct rem; [exists best, r, D, st; exact H|]. simpl in Hl. lia.
      - destruct (list_eq_dec Nat.eq_dec rem []) as [->|Hne]; [exists best, r, D, st; exact H|]. destruct (loop_next H Hne) as (rem' & D' & st' & best' & H'). apply (IH _ _ _ _ _ H'). lia. }
    apply (X n 0 (seq 0 n) start (fun _ => 0) (0, 1)); [constructor|lia].
  Qed.
End Approx.
