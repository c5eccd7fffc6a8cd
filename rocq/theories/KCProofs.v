From Coq Require Import Permutation.
From Verif Require Import Base ListUtil BKModel BKSpec BKProofs BKProps KCModel KCSpec.

Lemma run_any inc o null n d0 ok s d due last : run inc o null n d0 ok s d due last -> run inc o null n d0 any s d due last.
Proof.
  induction 1 as [i H1 H2 H3 H4 H5|s d due last fuel b L s' H IH E|s d due last ms H IH Hnd Hok].
  - now apply run_start.
  - eapply run_next; eauto.
  - apply run_move; auto. intros m Hm. split; [apply Hok, Hm|exact I].
Qed.

Lemma run_weaken inc o null n d0 (ok ok' : (nat -> nat) -> (nat -> bool) -> move -> Prop) s d due last :
  (forall d due m, ok d due m -> ok' d due m) ->
  run inc o null n d0 ok s d due last -> run inc o null n d0 ok' s d due last.
Proof.
  intros Himp. induction 1 as [i H1 H2 H3 H4 H5|s d due last fuel b L s' H IH E|s d due last ms H IH Hnd Hok].
  - now apply run_start.
  - eapply run_next; eauto.
  - apply run_move; auto. intros m Hm. destruct (Hok m Hm). split; auto.
Qed.

(* what is put into the structure does not depend on the dues outside, only their values matter *)
Lemma update_skip l : forall s, update_seq l s = update_seq (filter (fun vb => match snd vb with Some _ => true | None => false end) l) s.
Proof.
  unfold update_seq. induction l as [|[v [b|]] l IH]; intros s; simpl; auto.
Qed.

Lemma advance_ext inc o d d' s : (forall v, d v = d' v) -> advance inc o d s = advance inc o d' s.
Proof.
  intros H. assert (E : forall l : list nat, map d l = map d' l) by (intros; now apply map_ext).
  assert (E2 : forall r (l : list nat), map (fun v => (v, to_range inc o r (d v))) l = map (fun v => (v, to_range inc o r (d' v))) l).
  { intros. apply map_ext. intros v. now rewrite H. }
  unfold advance, unpack. destruct (cur s + 1 =? o); auto. cbn [bk cur range nelm]. now rewrite !E2, !E, !H.
Qed.
Lemma next_ext inc o d d' : (forall v, d v = d' v) -> forall fuel s, next_bucket inc o fuel d s = next_bucket inc o fuel d' s.
Proof.
  intros H. induction fuel as [|fuel IH]; intros s; auto. cbn [next_bucket]. rewrite (advance_ext inc o d d' s H).
  destruct (_ && _).
  - destruct (advance inc o d' s); auto.
  - destruct (nelm s =? 0); auto.
    rewrite (filter_ext (fun i => d i =? cur_num inc o s) (fun i => d' i =? cur_num inc o s)) by (intros v; now rewrite H).
    destruct (filter _ _); auto.
Qed.

Lemma count_sum (outn : nat -> list nat) L v :
  count_occ Nat.eq_dec (flat_map outn L) v = list_sum (map (fun u => count_occ Nat.eq_dec (outn u) v) L).
Proof. induction L as [|u L IH]; simpl; auto. now rewrite count_occ_app, IH. Qed.

Lemma count_mem (l : list nat) : forall L, NoDup L ->
  list_sum (map (fun u => count_occ Nat.eq_dec l u) L) = length (filter (fun w => mem w L) l).
Proof.
  intros L Hnd. induction l as [|x l IH]; simpl.
  - induction L; simpl; auto. inversion Hnd. auto.
  - assert (E : list_sum (map (fun u => if Nat.eq_dec x u then S (count_occ Nat.eq_dec l u) else count_occ Nat.eq_dec l u) L)
              = (if mem x L then 1 else 0) + list_sum (map (fun u => count_occ Nat.eq_dec l u) L)).
    { clear IH. induction L as [|u L IHL]; simpl; auto. inversion Hnd; subst. rewrite IHL; auto.
      destruct (Nat.eq_dec x u) as [->|Hne].
      - rewrite Nat.eqb_refl. simpl. assert (E : mem u L = false).
        { destruct (mem u L) eqn:E; auto. apply mem_In in E. contradiction. }
        rewrite E. lia.
      - rewrite (proj2 (Nat.eqb_neq x u) Hne). unfold mem. simpl. fold (mem x L). lia. }
    rewrite E, IH. destruct (mem x L); simpl; lia.
Qed.

Lemma filter_split {A} (f g : A -> bool) l : (forall x, In x l -> f x = true -> g x = true) ->
  length (filter g l) = length (filter f l) + length (filter (fun x => g x && negb (f x)) l).
Proof.
  induction l as [|x l IH]; intros H; simpl; auto.
  assert (IH' := IH (fun y Hy => H y (or_intror Hy))). pose proof (H x (or_introl eq_refl)) as Hx.
  destruct (f x) eqn:Ef, (g x) eqn:Eg; simpl; try lia.
Qed.

Lemma filter_le_imp {A} (f g : A -> bool) l : (forall x, In x l -> f x = true -> g x = true) ->
  length (filter f l) <= length (filter g l).
Proof. intros H. rewrite (filter_split f g l H). lia. Qed.

Section KC.
  Variable n : nat.
  Variable outn : nat -> list nat.
  Variable o null : nat.
  Hypothesis Ho : 0 < o.
  Hypothesis Hsym : symmetric n outn.
  Hypothesis Hdeg : forall v, v < n -> length (outn v) < null.
  Notation degrees := (degrees n outn null).

  Notation rdeg := (degree_in outn).

  (* the moves of a round *)
  Definition kc_moves (k : nat) (D : nat -> nat) (res : list (nat * nat)) : list move :=
    map (fun p => {| mv_id := fst p; mv_next := Nat.max (usub null (D (fst p)) (snd p)) k; mv_one_arg := true |})
        (filter (fun p => k <? D (fst p)) res).

  Lemma moves_id k D res : map mv_id (kc_moves k D res) = map fst (filter (fun p => k <? D (fst p)) res).
  Proof. unfold kc_moves. rewrite map_map. reflexivity. Qed.

  Lemma applied_eq s k : forall res D D0 m, NoDup (map fst res) -> (forall v, In v (map fst res) -> D v = D0 v) ->
    let Dm := fold_left (kc_apply o null s k) res (D, m) in
    (forall v, fst Dm v = match find (fun mv => mv_id mv =? v) (kc_moves k D0 res) with Some mv => mv_next mv | None => D v end) /\
    snd Dm = m ++ filter (fun vb => match snd vb with Some _ => true | None => false end) (batch true o null s D0 (kc_moves k D0 res)).
  Proof.
    induction res as [|[v er] res IH]; intros D D0 m Hnd HD Dm.
    - split; auto. simpl. now rewrite app_nil_r.
    - inversion Hnd as [|? ? Hv Hnd']; subst. unfold Dm. cbn [fold_left kc_apply].
      assert (Ev : D v = D0 v) by (apply HD; now left).
      unfold kc_moves. cbn [filter fst]. rewrite Ev. destruct (k <? D0 v) eqn:Ek.
      + set (nd := Nat.max (usub null (D0 v) er) k).
        set (m' := match get_bucket1 true o s nd with Some b => m ++ [(v, Some b)] | None => m end).
        destruct (IH (fset D v nd) D0 m' Hnd') as [H1 H2].
        { intros u Hu. rewrite fset_other; [apply HD; now right|]. intros ->. contradiction. }
        split.
        * intros u. rewrite H1. cbn [map find mv_id fst snd mv_next]. destruct (v =? u) eqn:Eu.
          -- apply Nat.eqb_eq in Eu. subst u. destruct (find _ _) as [mv|] eqn:Ef.
             ++ exfalso. apply find_some in Ef as [Hin E]. apply Nat.eqb_eq in E. apply Hv.
                assert (Hi : In (mv_id mv) (map mv_id (kc_moves k D0 res))) by now apply in_map.
                rewrite moves_id, E in Hi. apply in_map_iff in Hi as (p & <- & Hp). apply in_map. now apply filter_In in Hp.
             ++ apply fset_same.
          -- apply Nat.eqb_neq in Eu. unfold kc_moves. destruct (find _ _); auto. apply fset_other. auto.
        * rewrite H2. unfold kc_moves. cbn [map batch mv_id mv_next mv_one_arg fst snd]. fold nd. unfold m'. cbn [filter snd].
          destruct (get_bucket1 true o s nd); auto. now rewrite <- app_assoc.
      + destruct (IH D D0 m Hnd') as [H1 H2]; [intros u Hu; apply HD; now right|]. split; auto.
  Qed.

  Record KI (f : nat) (D : nat -> nat) (s : bst) (log : list (nat * list nat)) (due : nat -> bool) (last : nat) : Prop := {
    k_run : run true o null n degrees (closer true null) s D due last;
    k_due : forall v, due v = true -> v < n;
    k_fin : f + length (filter due (seq 0 n)) = n;
    k_D : forall v, due v = true -> D v = Nat.max last (rdeg due v);
    k_hi : forall j S v, core n outn j S -> last < j -> S v = true -> due v = true;
    k_lo : exists S, core n outn last S /\ forall v, due v = true -> S v = true;
    k_out : forall v, v < n -> due v = false -> coreness n outn v (D v) /\ D v <= last;
    k_log : Permutation (concat (map snd log)) (filter (fun v => negb (due v)) (seq 0 n));
    k_ord : forall l1 v l2, concat (map snd log) = l1 ++ v :: l2 ->
              degree_in outn (fun w => due w || mem w l2) v <= D v;
    k_inc : forall l1 v l2, concat (map snd log) = l1 ++ v :: l2 -> forall w, In w l2 -> D v <= D w;
    k_len : length log <= f }.

  Lemma core_all : core n outn 0 (fun v => v <? n).
  Proof. intros v Hv. apply Nat.ltb_lt in Hv. split; [auto|lia]. Qed.

  Lemma rdeg_all v : v < n -> rdeg (fun w => w <? n) v = length (outn v).
  Proof.
    intros Hv. unfold degree_in. rewrite filter_all; auto. intros w Hw. apply Nat.ltb_lt. destruct Hsym as [H _]. eauto.
  Qed.

  Lemma usub_le a b : b <= a -> a <= null -> usub null a b = a - b.
  Proof. intros H1 H2. unfold usub. replace (a + (null + 1) - b) with ((a - b) + 1 * (null + 1)) by lia. rewrite Nat.mod_add by lia. apply Nat.mod_small. lia. Qed.

  Lemma start_ki : 0 < n -> exists due last, KI 0 degrees (make true o null n degrees) [] due last.
  Proof.
    intros Hn.
    assert (Hmin : forall k, k < n -> exists i, i <= k /\ forall j, j <= k -> length (outn i) <= length (outn j)).
    { induction k as [|k IH]; intros Hk; [exists 0; split; auto; intros j Hj; now replace j with 0 by lia|].
      destruct IH as (i & Hi & H); [lia|]. destruct (Nat.le_gt_cases (length (outn i)) (length (outn (S k)))) as [X|X].
      - exists i. split; [lia|]. intros j Hj. destruct (Nat.eq_dec j (S k)) as [->|]; auto. apply H. lia.
      - exists (S k). split; auto. intros j Hj. destruct (Nat.eq_dec j (S k)) as [->|]; auto. specialize (H j ltac:(lia)). lia. }
    destruct (Hmin (n - 1) ltac:(lia)) as (i & Hi & Hm). assert (Hin : i < n) by lia.
    assert (Ed : forall v, v < n -> degrees v = length (outn v)).
    { intros v Hv. unfold KCModel.degrees. now rewrite (proj2 (Nat.ltb_lt _ _) Hv). }
    assert (Eo : forall v, n <= v -> degrees v = null).
    { intros v Hv. unfold KCModel.degrees. now rewrite (proj2 (Nat.ltb_ge _ _) Hv). }
    assert (Edue : forall v, (v <? n) && (degrees v <? null) = (v <? n)).
    { intros v. destruct (v <? n) eqn:E; auto. apply Nat.ltb_lt in E. simpl. rewrite Ed by auto. apply Nat.ltb_lt. auto. }
    exists (fun v => (v <? n) && (degrees v <? null)), (degrees i).
    assert (Erd : forall v, v < n -> rdeg (fun v => (v <? n) && (degrees v <? null)) v = length (outn v)).
    { intros v Hv. rewrite <- (rdeg_all Hv). unfold degree_in. f_equal. apply filter_ext. auto. }
    assert (Hcore : core n outn (degrees i) (fun v => v <? n)).
    { intros v Hv. apply Nat.ltb_lt in Hv. split; auto. rewrite rdeg_all, Ed by auto. apply Hm. lia. }
    split.
    - apply run_start; auto.
      + rewrite Ed by auto. auto.
      + intros j. destruct (Nat.lt_ge_cases j n); [rewrite Ed by auto; apply Nat.lt_le_incl; auto|rewrite Eo; auto].
      + intros j Hj _. simpl. rewrite !Ed by auto. apply Hm. lia.
    - intros v. rewrite Edue. apply Nat.ltb_lt.
    - rewrite filter_all, seq_length; auto. intros v Hv. apply in_seq in Hv. rewrite Edue. apply Nat.ltb_lt. lia.
    - intros v. rewrite Edue. intros Hv. apply Nat.ltb_lt in Hv. rewrite Erd, !Ed by auto. specialize (Hm v ltac:(lia)). lia.
    - intros j S v Hc Hj Hv. rewrite Edue. apply Nat.ltb_lt. now apply (Hc v).
    - exists (fun v => v <? n). split; auto. intros v. now rewrite Edue.
    - intros v Hv. rewrite Edue. intros X. apply Nat.ltb_ge in X. lia.
    - simpl. rewrite filter_none; auto. intros v Hv. apply in_seq in Hv. rewrite Edue, (proj2 (Nat.ltb_lt v n)) by lia. reflexivity.
    - intros l1 v l2 E. simpl in E. destruct l1; discriminate.
    - intros l1 v l2 E. simpl in E. destruct l1; discriminate.
    - simpl. lia.
  Qed.

  Lemma mem_false v L : mem v L = false <-> ~ In v L.
  Proof. rewrite <- mem_In. destruct (mem v L); split; congruence. Qed.

  Lemma round_ki f Dr D s log due last fuel k L s' res : (forall v, Dr v = D v) -> KI f D s log due last ->
    next_bucket true o fuel Dr s = Ret (Some (k, L)) s' -> counted (flat_map outn L) res ->
    L <> [] /\
    exists D' due', (forall v, fst (kc_applied o null s' k Dr res) v = D' v) /\
      KI (f + length L) D' (update_seq (snd (kc_applied o null s' k Dr res)) s') (log ++ [(k, L)]) due' k.
  Proof.
    intros HDr HI En [Hnd Hres]. rewrite (next_ext true o Dr D HDr) in En.
    destruct (C19_next_bucket Ho (run_any (k_run HI))) as (_ & _ & Hans). specialize (Hans _ _ _ En).
    destruct Hans as (HLne & HL & Hall & Hk). cbn [no_later] in Hall, Hk.
    assert (HndL : NoDup L) by (eapply C19_no_repeats; [exact Ho|left; reflexivity|apply (k_run HI)|exact En]).
    assert (HLn : forall v, In v L -> v < n) by (intros v Hv; apply HL in Hv as [Hv _]; now apply (k_due HI)).
    split; auto.
    set (due1 := fun v => due v && negb (mem v L)).
    assert (Hdue1 : forall v, due1 v = true <-> due v = true /\ ~ In v L).
    { intros v. unfold due1. rewrite Bool.andb_true_iff, Bool.negb_true_iff, mem_false. tauto. }
    assert (Hr1 : run true o null n degrees (closer true null) s' D due1 k) by (eapply run_next; [apply (k_run HI)|exact En]).
    (* the counts *)
    assert (Hcnt : forall v, v < n -> count_occ Nat.eq_dec (flat_map outn L) v = rdeg (fun w => mem w L) v).
    { intros v Hv. rewrite count_sum. unfold degree_in. rewrite <- (count_mem (outn v) HndL). f_equal. apply map_ext_in.
      intros u Hu. destruct Hsym as [_ H]. apply H; auto. }
    assert (Hsplit : forall v, rdeg due v = rdeg (fun w => mem w L) v + rdeg due1 v).
    { intros v. unfold degree_in, due1. rewrite (filter_split (fun w => mem w L) due); auto.
      intros w _ Hw. apply mem_In, HL in Hw. tauto. }
    assert (HgtL : forall v, due v = true -> (k < D v <-> ~ In v L)).
    { intros v Hv. specialize (Hall v Hv). split; intros X.
      - intros Y. apply HL in Y as [_ Y]. lia.
      - destruct (Nat.eq_dec (D v) k); [exfalso; apply X, HL; auto|lia]. }
    assert (Hgt : forall v, v < n -> k < D v -> due1 v = true /\ D v = rdeg due v).
    { intros v Hv X. destruct (due v) eqn:Ed.
      - split; [apply Hdue1; split; auto; now apply HgtL|]. pose proof (k_D HI v Ed). lia.
      - destruct (k_out HI Hv Ed) as [_ Y]. lia. }
    assert (Hnbr : forall v c, In (v, c) res -> v < n /\ 0 < c /\ c = rdeg (fun w => mem w L) v).
    { intros v c H. apply Hres in H as [-> Hc]. assert (Hv : v < n).
      { apply (count_occ_In Nat.eq_dec), in_flat_map in Hc as (u & Hu & Huv). destruct Hsym as [X _]. eapply X; eauto. }
      auto. }
    assert (Hdn : forall v, v < n -> D v <= null).
    { intros v Hv. destruct (due v) eqn:Ed.
      - pose proof (k_D HI v Ed). assert (rdeg due v <= length (outn v)) by apply filter_len_le. pose proof (Hdeg Hv).
        pose proof (Hall v Ed). destruct (Nat.le_gt_cases (rdeg due v) last); [|lia].
        assert (D v = last) by lia.
        destruct (k_lo HI) as (S & HS & HSd). destruct (HS v (HSd v Ed)) as [_ X].
        assert (degree_in outn S v <= length (outn v)) by apply filter_len_le. lia.
      - destruct (k_out HI Hv Ed) as [[(S & HS & HSv) _] _]. destruct (HS v HSv) as [_ X].
        assert (degree_in outn S v <= length (outn v)) by apply filter_len_le. pose proof (Hdeg Hv). lia. }
    set (ms := kc_moves k D res).
    assert (Hms : forall m, In m ms -> exists c, In (mv_id m, c) res /\ k < D (mv_id m) /\
              mv_next m = Nat.max (D (mv_id m) - c) k /\ mv_one_arg m = true /\ mv_next m < D (mv_id m)).
    { intros m Hm. unfold ms, kc_moves in Hm. apply in_map_iff in Hm as ([v c] & <- & Hp). apply filter_In in Hp as [Hp Hk'].
      apply Nat.ltb_lt in Hk'. cbn [fst snd mv_id mv_next mv_one_arg] in *. exists c. split; auto. split; auto.
      destruct (Hnbr v c Hp) as (Hv & Hc & Ec). destruct (Hgt v Hv Hk') as [_ Er]. pose proof (Hsplit v).
      rewrite usub_le by (try lia; auto). repeat split; auto. lia. }
    destruct (@applied_eq s' k res Dr D [] Hnd (fun v _ => HDr v)) as [HD1 Hm1]. fold ms in HD1, Hm1.
    unfold kc_applied.
    set (Da := fst (fold_left (kc_apply o null s' k) res (Dr, []))) in *.
    set (dests := snd (fold_left (kc_apply o null s' k) res (Dr, []))) in *.
    set (D' := moved ms D).
    assert (HDmoved : forall v, Da v = D' v).
    { intros v. rewrite HD1. unfold D', moved. now rewrite HDr. }
    assert (Hmid : NoDup (map mv_id ms)).
    { unfold ms. rewrite moves_id. clear -Hnd. induction res as [|p res IH]; simpl; [constructor|]. inversion Hnd; subst.
      destruct (k <? D (fst p)); auto. simpl. constructor; auto. intros X. apply H1.
      apply in_map_iff in X as (q & E & Hq). rewrite <- E. apply in_map. now apply filter_In in Hq. }
    assert (Hlegal : forall m, In m ms -> legal true null D due1 k m /\ closer true null D due1 m).
    { intros m Hm. destruct (Hms m Hm) as (c & Hp & Hgt' & Hnx & Harg & Hlt). destruct (Hnbr _ _ Hp) as (Hv & Hc & Ec).
      destruct (Hgt _ Hv Hgt') as [Hd Er]. split.
      - split; [specialize (Hdn _ Hv); lia|]. split; [simpl; lia|]. intros _ _. auto.
      - right. left. split; auto. }
    assert (Hr2 : run true o null n degrees (closer true null) (update_seq (batch true o null s' D ms) s') (moved ms D)
              (fun v => due1 v || mem v (map mv_id ms)) k) by (apply run_move; auto).
    assert (Edue : forall v, due1 v || mem v (map mv_id ms) = due1 v).
    { intros v. destruct (mem v (map mv_id ms)) eqn:E; [|apply Bool.orb_false_r]. apply mem_In, in_map_iff in E as (m & <- & Hm).
      destruct (Hms m Hm) as (c & Hp & Hgt' & _). destruct (Hnbr _ _ Hp) as (Hv & _). destruct (Hgt _ Hv Hgt') as [-> _]. reflexivity. }
    (* the new degrees *)
    assert (Hsame : forall v, ~ (v < n /\ k < D v) -> D' v = D v).
    { intros v Hn. unfold D', moved. destruct (find _ ms) as [m|] eqn:Ef; auto. apply find_some in Ef as [Hm E]. apply Nat.eqb_eq in E.
      exfalso. apply Hn. destruct (Hms m Hm) as (c & Hp & Hgt' & _). destruct (Hnbr _ _ Hp) as (Hv & _). now rewrite <- E. }
    assert (Hnew : forall v, v < n -> k < D v -> D' v = Nat.max k (rdeg due1 v)).
    { intros v Hv Hg. destruct (Hgt v Hv Hg) as [_ Er]. pose proof (Hsplit v) as Hs. unfold D', moved. destruct (find _ ms) as [m|] eqn:Ef.
      - apply find_some in Ef as [Hm E]. apply Nat.eqb_eq in E. destruct (Hms m Hm) as (c & Hp & _ & Hnx & _ & _).
        rewrite E in Hp, Hnx. destruct (Hnbr _ _ Hp) as (_ & _ & Ec). rewrite Hnx. lia.
      - assert (E0 : rdeg (fun w => mem w L) v = 0).
        { destruct (Nat.eq_dec (rdeg (fun w => mem w L) v) 0) as [|Hne]; auto. exfalso.
          assert (Hin : In (v, count_occ Nat.eq_dec (flat_map outn L) v) res).
          { apply Hres. split; auto. rewrite Hcnt by auto. lia. }
          assert (Hm : In {| mv_id := v; mv_next := Nat.max (usub null (D v) (count_occ Nat.eq_dec (flat_map outn L) v)) k; mv_one_arg := true |} ms).
          { unfold ms, kc_moves. apply in_map_iff. eexists. split; [|apply filter_In; split; [exact Hin|apply Nat.ltb_lt; exact Hg]]. reflexivity. }
          apply (find_none _ _ Ef) in Hm. simpl in Hm. rewrite Nat.eqb_refl in Hm. discriminate. }
        lia. }
    assert (HloL : exists S, core n outn k S /\ forall v, due v = true -> S v = true).
    { destruct (Nat.eq_dec k last) as [->|Hne]; [apply (k_lo HI)|]. exists due. split; auto. intros v Hv. split; [now apply (k_due HI)|].
      specialize (Hall v Hv). pose proof (k_D HI v Hv). lia. }
    assert (HhiL : forall j S v, core n outn j S -> k < j -> S v = true -> due1 v = true).
    { intros j S v HS Hj Hv. assert (Hd : forall w, S w = true -> due w = true) by (intros w Hw; eapply (k_hi HI); eauto; lia).
      apply Hdue1. split; auto. intros HvL. apply HL in HvL as [_ E]. pose proof (k_D HI v (Hd v Hv)) as E2.
      destruct (HS v Hv) as [_ Hd2]. assert (degree_in outn S v <= degree_in outn due v) by (apply filter_le_imp; auto). lia. }
    assert (HcL : forall v, In v L -> coreness n outn v k).
    { intros v HvL. pose proof (HL v) as X. apply X in HvL as Y. destruct Y as [Hd E]. split.
      - destruct HloL as (S & HS & HSd). exists S. auto.
      - intros j S HS Hv. destruct (Nat.le_gt_cases j k) as [|Hj]; auto. apply (HhiL j S v HS Hj) in Hv. apply Hdue1 in Hv. tauto. }
    assert (Erd : forall v, rdeg (fun v => due1 v || mem v (map mv_id ms)) v = rdeg due1 v).
    { intros v. unfold degree_in. f_equal. apply filter_ext. auto. }
    exists D', (fun v => due1 v || mem v (map mv_id ms)). split; auto. split.
    - rewrite Hm1. cbn [app]. rewrite <- update_skip. exact Hr2.
    - intros v. rewrite Edue. intros Hv. apply Hdue1 in Hv as [Hv _]. now apply (k_due HI).
    - rewrite (filter_ext (fun v => due1 v || mem v (map mv_id ms)) due1 Edue).
      pose proof (k_fin HI) as Hf. rewrite (filter_split (fun w => mem w L) due) in Hf by (intros w _ Hw; apply mem_In, HL in Hw; tauto).
      assert (E : length (filter (fun w => mem w L) (seq 0 n)) = length L).
      { apply Permutation_length, NoDup_Permutation; auto; [apply NoDup_filter, seq_NoDup|]. intros w. rewrite filter_In, mem_In, in_seq. split; [tauto|].
        intros Hw. split; auto. specialize (HLn w Hw). lia. }
      unfold due1. lia.
    - intros v. rewrite Edue, Erd. intros Hv. apply Hdue1 in Hv as Hv'. destruct Hv' as [Hd HnL]. apply Hnew; [now apply (k_due HI)|now apply HgtL].
    - intros j S v. rewrite Edue. apply HhiL.
    - destruct HloL as (S & HS & HSd). exists S. split; auto. intros v. rewrite Edue. intros Hv. apply Hdue1 in Hv. apply HSd. tauto.
    - intros v Hv. rewrite Edue. intros Hd1. destruct (due v) eqn:Ed.
      + assert (HvL : In v L). { destruct (in_dec Nat.eq_dec v L) as [|Hn]; auto. exfalso. assert (due1 v = true) by (apply Hdue1; auto). congruence. }
        apply HL in HvL as E. destruct E as [_ E]. rewrite Hsame by lia. rewrite E. auto.
      + destruct (k_out HI Hv Ed) as [A B]. rewrite Hsame by lia. split; auto. lia.
    - rewrite map_app, concat_app. cbn [map concat snd]. rewrite app_nil_r. rewrite (k_log HI). symmetry. apply NoDup_Permutation.
      + apply NoDup_filter, seq_NoDup.
      + apply NoDup_app_iff. split; [apply NoDup_filter, seq_NoDup|]. split; auto. intros w Hw HwL. apply filter_In in Hw as [_ Hw].
        apply HL in HwL as [HwL _]. rewrite HwL in Hw. discriminate.
      + intros w. rewrite in_app_iff, !filter_In, in_seq, Edue. unfold due1. destruct (mem w L) eqn:Em.
        * apply mem_In in Em. specialize (HLn w Em). rewrite Bool.andb_false_r. simpl. split; auto. intros _. split; auto. lia.
        * apply mem_false in Em. rewrite Bool.andb_true_r. tauto.
    - intros l1 v l2 E. rewrite map_app, concat_app in E. cbn [map concat snd] in E. rewrite app_nil_r in E.
      assert (Hcase : (exists l3, concat (map snd log) = l1 ++ v :: l3 /\ l2 = l3 ++ L) \/ (exists l3, L = l3 ++ v :: l2)).
      { destruct (app_eq_app _ _ _ _ E) as (l & [[A B]|[A B]]).
        - destruct l as [|x l]; [right; exists []; auto|]. injection B as <- ->. left. exists l. auto.
        - right. exists l. auto. }
      destruct Hcase as [(l3 & A & ->)|(l3 & A)].
      + assert (Hv : In v (filter (fun v => negb (due v)) (seq 0 n))).
        { eapply Permutation_in; [apply (k_log HI)|]. rewrite A. apply in_or_app. right. now left. }
        apply filter_In in Hv as [Hvn Hv]. apply in_seq in Hvn. apply Bool.negb_true_iff in Hv.
        assert (Hvl : v < n) by lia. destruct (k_out HI Hvl Hv) as [_ Hle]. rewrite Hsame by lia. etransitivity; [|eapply (k_ord HI); exact A].
        apply filter_le_imp. intros w _. rewrite Edue. unfold due1, mem. rewrite existsb_app. fold (mem w L). fold (mem w l3).
        destruct (mem w L) eqn:Em; [|rewrite Bool.andb_true_r, Bool.orb_false_r; auto].
        apply mem_In, HL in Em as [-> _]. auto.
      + assert (HvL : In v L) by (rewrite A; apply in_or_app; right; now left).
        apply HL in HvL as X. destruct X as [Hd Ek]. rewrite Hsame by lia. rewrite (k_D HI v Hd). etransitivity; [|apply Nat.le_max_r].
        apply filter_le_imp. intros w _. rewrite Edue. intros Hw. apply Bool.orb_true_iff in Hw as [Hw|Hw]; [now apply Hdue1 in Hw|].
        apply mem_In in Hw. assert (HwL : In w L) by (rewrite A; apply in_or_app; right; now right). now apply HL in HwL.
    - intros l1 v l2 E. rewrite map_app, concat_app in E. cbn [map concat snd] in E. rewrite app_nil_r in E.
      assert (HoutD : forall w, In w (concat (map snd log)) -> D w <= last /\ D' w = D w).
      { intros w Hw. eapply Permutation_in in Hw; [|apply (k_log HI)]. apply filter_In in Hw as [Hwn Hw]. apply in_seq in Hwn.
        apply Bool.negb_true_iff in Hw. assert (Hwl : w < n) by lia. destruct (k_out HI Hwl Hw) as [_ Hle]. split; auto. apply Hsame. lia. }
      assert (HinD : forall w, In w L -> D' w = k).
      { intros w Hw. apply HL in Hw as [_ Hw]. rewrite Hsame by lia. auto. }
      destruct (app_eq_app _ _ _ _ E) as (l & [[A B]|[A B]]).
      + destruct l as [|x l].
        * cbn [app] in B. intros w Hw. rewrite !HinD; auto; rewrite <- B; [now right|now left].
        * injection B as <- ->. intros w Hw. destruct (HoutD v) as [X1 ->]; [rewrite A; apply in_or_app; right; now left|].
          apply in_app_iff in Hw as [Hw|Hw]; [|rewrite HinD; auto; lia].
          destruct (HoutD w) as [_ ->]; [rewrite A; apply in_or_app; right; now right|]. eapply (k_inc HI); eauto.
      + intros w Hw. rewrite !HinD; auto; rewrite B; apply in_or_app; right; [now right|now left].
    - rewrite app_length. simpl. pose proof (k_len HI). destruct L; [congruence|simpl; lia].
  Qed.

  Lemma loop_ki f D s log : 0 < n -> kc_loop n outn o null f D s log ->
    exists D' due last, (forall v, D v = D' v) /\ KI f D' s log due last.
  Proof.
    intros Hn H. induction H as [|f D s log fuel k L s' res H (D' & due & last & HD & HI) Hf En Hc].
    - destruct (start_ki Hn) as (due & last & HI). exists degrees, due, last. auto.
    - destruct (round_ki D fuel HD HI En Hc) as (_ & D2 & due2 & H1 & H2). exists D2, due2, k. auto.
  Qed.

  Lemma counted_exists keys : exists res, counted keys res.
  Proof.
    exists (map (fun v => (v, count_occ Nat.eq_dec keys v)) (nodup Nat.eq_dec keys)). split.
    - rewrite map_map. simpl. rewrite map_id. apply NoDup_nodup.
    - intros v c. rewrite in_map_iff. split.
      + intros (u & E & Hu). injection E as -> <-. split; auto. apply (count_occ_In Nat.eq_dec). now apply nodup_In in Hu.
      + intros [-> Hc]. exists v. split; auto. apply nodup_In. now apply (count_occ_In Nat.eq_dec).
  Qed.

  Lemma loop_step f D s log : 0 < n -> kc_loop n outn o null f D s log -> f <> n ->
    exists fuel k L s' res, next_bucket true o fuel D s = Ret (Some (k, L)) s' /\ counted (flat_map outn L) res.
  Proof.
    intros Hn H Hf. destruct (loop_ki Hn H) as (D' & due & last & HD & HI).
    destruct (C19_next_bucket Ho (run_any (k_run HI))) as ((fuel & r & s' & En) & _ & Hans). specialize (Hans _ _ _ En).
    destruct r as [[k L]|].
    - destruct (counted_exists (flat_map outn L)) as [res Hres]. exists fuel, k, L, s', res.
      now rewrite (next_ext true o D D' HD).
    - exfalso. pose proof (k_fin HI) as X. rewrite filter_none in X; [simpl in X; lia|]. auto.
  Qed.

  Lemma loop_runs j : 0 < n -> (exists D s log, kc_loop n outn o null n D s log) \/
    exists f D s log, kc_loop n outn o null f D s log /\ f <> n /\ j <= length log.
  Proof.
    intros Hn. induction j as [|j [IH|(f & D & s & log & H & Hf & Hj)]]; auto.
    - right. exists 0. do 3 eexists. split; [constructor|]. split; lia.
    - destruct (loop_step Hn H Hf) as (fuel & k & L & s' & res & En & Hc).
      pose proof (@kc_round n outn o null f D s log fuel k L s' res H Hf En Hc) as H'. destruct (Nat.eq_dec (f + length L) n) as [E|E].
      + left. rewrite E in H'. eauto.
      + right. do 4 eexists. split; [exact H'|]. split; auto. rewrite app_length. simpl. lia.
  Qed.
End KC.
