(* Proofs for C89. *)
From Coq Require Import Permutation.
From Verif Require Import Base DYModel DYSpec.
Unset Strict Implicit.
Section P.
  Context {E : Type}.
  Implicit Types (h : heap E) (d : darr) (l f : list E).

  (* the invariant: F, the block of the caller, if any; h0, the heap at the start *)
  Definition rep (st : heap E * darr) l c : Prop :=
    let '(h, d) := st in
    size d = length l /\ capacity d = c /\ length l <= c /\
    ((arr d = None /\ c = 0) \/
     exists b cs, arr d = Some b /\ nth_error h b = Some (Some cs) /\ length cs = c /\ forall i, i < length l -> nth_error cs i = Some (nth_error l i)).
  Definition own (h0 : heap E) (F : option nat) (st : heap E * darr) : Prop :=
    let '(h, d) := st in
    length h0 <= length h /\ (forall b, b < length h0 -> F <> Some b -> nth_error h b = nth_error h0 b) /\
    (forall b, F = Some b -> b < length h0 /\ live h b) /\ (forall b, length h0 <= b -> (live h b <-> arr d = Some b)) /\
    (alloc d = false -> arr d = F) /\ (alloc d = true -> exists b, arr d = Some b /\ length h0 <= b).

  Lemma store_ok h b cs i v : nth_error h b = Some (Some cs) -> i < length cs ->
    exists h', store h (Some b) i v = Some h' /\ length h' = length h /\ nth_error h' b = Some (Some (lset cs i (Some v))) /\
      forall k, k <> b -> nth_error h' k = nth_error h k.
  Proof.
    intros Hb Hi. unfold store. rewrite Hb. destruct (Nat.ltb_spec i (length cs)); [|lia].
    eexists. split; [reflexivity|]. split; [apply length_lset|]. split.
    - apply nth_error_lset_same. apply nth_error_Some. congruence.
    - intros k Hk. apply nth_error_lset_other. congruence.
  Qed.
  Lemma fill_ok b off f : forall order h cs, nth_error h b = Some (Some cs) -> (forall i, In i order -> i < length f /\ off + i < length cs) ->
    exists h' cs', fill_loop (Some b) off f order (Some h) = Some h' /\ length h' = length h /\ nth_error h' b = Some (Some cs') /\ length cs' = length cs /\
      (forall k, k <> b -> nth_error h' k = nth_error h k) /\ (forall i, In i order -> nth_error cs' (off + i) = Some (nth_error f i)) /\
      (forall j, (forall i, In i order -> j <> off + i) -> nth_error cs' j = nth_error cs j).
  Proof.
    unfold fill_loop. induction order as [|i order IH]; intros h cs Hb Ho; cbn [fold_left].
    - exists h, cs. repeat split; auto. intros i [].
    - destruct (Ho i (or_introl eq_refl)) as [Hi Hic]. destruct (nth_error f i) as [v|] eqn:Ev; [|apply nth_error_None in Ev; lia].
      destruct (@store_ok h b cs (off + i) v Hb Hic) as (h1 & E1 & L1 & B1 & O1). rewrite E1.
      destruct (IH h1 _ B1) as (h' & cs' & E' & L' & B' & C' & O' & W' & K').
      { intros j Hj. rewrite length_lset. apply Ho. now right. }
      exists h', cs'. split; auto. split; [congruence|]. split; auto. split; [now rewrite C', length_lset|]. split; [intros k Hk; rewrite O', O1; auto|]. split.
      + intros j [->|Hj]; [|auto]. destruct (in_dec Nat.eq_dec j order) as [Hin|Hn]; [auto|]. rewrite K' by (intros k Hk Ek; apply Hn; replace j with k by lia; auto).
        rewrite nth_error_lset_same by auto. now rewrite Ev.
      + intros j Hj. rewrite K' by (intros k Hk; apply Hj; now right). apply nth_error_lset_other. intros Ej. apply (Hj i); [now left|lia].
  Qed.
  Lemma copy_fill l sb b : forall order h, sb <> Some b -> (forall i, In i order -> load h sb i = nth_error l i) ->
    copy_loop sb (Some b) order (Some h) = fill_loop (Some b) 0 l order (Some h).
  Proof.
    unfold copy_loop, fill_loop. induction order as [|i order IH]; intros h Hne H; cbn [fold_left]; auto.
    rewrite (H i (or_introl eq_refl)). destruct (nth_error l i) as [v|] eqn:Ev.
    - simpl plus. destruct (store h (Some b) i v) as [h1|] eqn:Es.
      + apply IH; auto. intros j Hj. rewrite <- (H j (or_intror Hj)). unfold store in Es. destruct (nth_error h b) as [[cs|]|] eqn:Eb; try discriminate.
        destruct (i <? length cs); inversion Es; subst. unfold load. destruct sb as [s|]; auto. rewrite nth_error_lset_other by congruence. reflexivity.
      + clear. induction order; simpl; auto.
    - clear. induction order; simpl; auto.
  Qed.
  Lemma sched_lt s n : sched_ok s -> forall i, In i (s n) <-> i < n.
  Proof. intros H i. split; intros Hi; [apply (Permutation_in _ (H n)), in_seq in Hi; lia|eapply Permutation_in; [apply Permutation_sym, H|apply in_seq; lia]]. Qed.

  Lemma resize_ok h0 F s n st l c : sched_ok s -> rep st l c -> own h0 F st ->
    exists st', resize s n st = Some st' /\ rep st' l (room c (length l) n) /\ own h0 F st'.
  Proof.
    intros Hs Hr Ho. destruct st as [h d]. unfold resize, room. pose proof Hr as (Sz & Ca & Le & Cases). rewrite Ca, Sz.
    destruct (Nat.ltb_spec c (n + length l)) as [L|L]; [|eauto].
    set (nc := Nat.max (2 * (n + length l)) kDynArrMinBktSize). assert (Hnc : n + length l <= nc) by (unfold nc; lia).
    pose proof Ho as (Hl0 & Hfr & HF & Hlive & Hal0 & Hal1).
    unfold new_array. set (h1 := h ++ [Some (repeat None nc)]).
    assert (B1 : nth_error h1 (length h) = Some (Some (repeat None nc))) by (unfold h1; rewrite nth_error_app2, Nat.sub_diag by lia; reflexivity).
    assert (K1 : forall k, k < length h -> nth_error h1 k = nth_error h k) by (intros; unfold h1; now rewrite nth_error_app1).
    assert (Harr : forall b, arr d = Some b -> b < length h).
    { intros b Eb. destruct Cases as [[En _]|(b' & cs & Eb' & Hb' & _)]; [congruence|]. rewrite Eb in Eb'. inversion Eb'; subst. apply nth_error_Some. congruence. }
    assert (Hload : forall i, In i (s (length l)) -> load h1 (arr d) i = nth_error l i).
    { intros i Hi. apply (sched_lt _ Hs) in Hi. destruct Cases as [[_ E0]|(b & cs & Eb & Hb & Hcs & Hc)]; [lia|]. rewrite Eb. unfold load.
      rewrite K1 by (apply Harr; auto). rewrite Hb, (Hc i Hi). destruct (nth_error l i); auto. }
    rewrite (@copy_fill l (arr d) (length h)); [|intros Ed; apply Harr in Ed; lia|exact Hload].
    destruct (@fill_ok (length h) 0 l (s (length l)) h1 (repeat None nc) B1) as (h2 & cs2 & E2 & L2 & B2 & C2 & O2 & W2 & _).
    { intros i Hi. apply (sched_lt _ Hs) in Hi. rewrite repeat_length. lia. }
    rewrite E2. rewrite repeat_length in C2.
    assert (L1 : length h1 = S (length h)) by (unfold h1; rewrite app_length; simpl; lia).
    assert (W : forall i, i < length l -> nth_error cs2 i = Some (nth_error l i)) by (intros i Hi; apply (W2 i), (sched_lt _ Hs); auto).
    destruct (alloc d) eqn:Ea.
    - destruct (Hal1 eq_refl) as (b & Eb & Hb0). destruct Cases as [[En _]|(b' & cs & Eb' & Hb' & Hcs & Hc)]; [congruence|].
      rewrite Eb in Eb'. inversion Eb'; subst b'. clear Eb'. assert (Hbl : b < length h) by (apply Harr; auto).
      unfold free_array. rewrite Eb, O2, K1, Hb' by lia. rewrite Hcs, Nat.eqb_refl.
      eexists. split; [reflexivity|]. split.
      + cbn. repeat split; auto; try lia. right. exists (length h), cs2. rewrite nth_error_lset_other by lia. auto.
      + cbn. split; [rewrite length_lset; lia|]. split.
        { intros k Hk Hkf. rewrite nth_error_lset_other by lia. rewrite O2, K1 by lia. auto. }
        split. { intros k Ek. destruct (HF k Ek) as [Hk [x Hx]]. split; auto. exists x. rewrite nth_error_lset_other by lia. rewrite O2, K1 by lia. exact Hx. }
        split; [|split; [discriminate|intros _; exists (length h); split; auto; lia]].
        intros k Hk. split.
        * intros [x Hx]. f_equal. destruct (Nat.eq_dec k b) as [->|Hkb]; [rewrite nth_error_lset_same in Hx by lia; discriminate|].
          rewrite nth_error_lset_other in Hx by lia. destruct (Nat.eq_dec k (length h)) as [->|Hkh]; auto. rewrite O2 in Hx by auto.
          assert (k < length h) by (assert (k < length h1) by (apply nth_error_Some; congruence); lia). rewrite K1 in Hx by auto.
          assert (arr d = Some k) by (apply Hlive; auto; exists x; auto). congruence.
        * intros Ek. inversion Ek; subst k. exists cs2. rewrite nth_error_lset_other by lia. exact B2.
    - eexists. split; [reflexivity|]. split.
      + cbn. repeat split; auto; try lia. right. exists (length h), cs2. auto.
      + cbn. split; [lia|]. split. { intros k Hk Hkf. rewrite O2, K1 by lia. auto. }
        split. { intros k Ek. destruct (HF k Ek) as [Hk [x Hx]]. split; auto. exists x. rewrite O2, K1 by lia. exact Hx. }
        split; [|split; [discriminate|intros _; exists (length h); split; auto; lia]].
        intros k Hk. split.
        * intros [x Hx]. f_equal. destruct (Nat.eq_dec k (length h)) as [->|Hkh]; auto. rewrite O2 in Hx by auto.
          assert (k < length h) by (assert (k < length h1) by (apply nth_error_Some; congruence); lia). rewrite K1 in Hx by auto.
          assert (Ak : arr d = Some k) by (apply Hlive; auto; exists x; auto). rewrite (Hal0 eq_refl) in Ak. destruct (HF k Ak). lia.
        * intros Ek. inversion Ek; subst k. exists cs2. exact B2.
  Qed.
  (* stores into the array keep the owners *)
  Lemma own_stores h0 F h h' d d' : own h0 F (h, d) -> arr d' = arr d -> alloc d' = alloc d -> length h' = length h ->
    (forall k, arr d <> Some k -> nth_error h' k = nth_error h k) -> (forall b, arr d = Some b -> live h b -> live h' b) -> own h0 F (h', d').
  Proof.
    intros (H1 & H2 & H3 & H4 & H5 & H6) Ea El Hl Hk Hb. cbn. rewrite Ea, El, Hl.
    assert (Hiff : forall b, live h' b <-> live h b \/ (arr d = Some b /\ live h' b)).
    { intros b. destruct (arr d) as [a|] eqn:Ar.
      - destruct (Nat.eq_dec a b) as [->|Hne].
        + split; [intros; right; auto|intros [H|[_ H]]; auto].
        + unfold live. rewrite Hk by congruence. split; [auto|]. intros [H|[H _]]; auto. congruence.
      - unfold live. rewrite Hk by congruence. split; [auto|]. intros [H|[H _]]; auto. congruence. }
    repeat split; auto.
    - intros b Hb0 HF. rewrite Hk; auto. intros Ar. destruct (alloc d) eqn:Al; [destruct (H6 eq_refl) as (x & Ex & Hx); rewrite Ar in Ex; inversion Ex; lia|].
      apply HF. rewrite <- (H5 eq_refl). auto.
    - destruct (H3 _ H) as [Hx _]. auto.
    - destruct (H3 _ H) as [Hx Hlv]. apply Hiff. auto.
    - intros Hlv. apply Hiff in Hlv as [Hlv|[Ar _]]; auto. now apply H4.
    - intros Ar. apply Hb; auto. now apply H4.
  Qed.
  Lemma fill_rep h0 F h d l c f order : rep (h, d) l c -> own h0 F (h, d) -> length l + length f <= c -> Permutation order (seq 0 (length f)) ->
    exists h', fill_loop (arr d) (size d) f order (Some h) = Some h' /\ rep (h', grow d (length f)) (l ++ f) c /\ own h0 F (h', grow d (length f)).
  Proof.
    intros (Sz & Ca & Le & Cases) Ho Hc Hp. destruct Cases as [[En E0]|(b & cs & Eb & Hb & Hcs & Hv)].
    - assert (length l = 0 /\ length f = 0) as [L0 F0] by lia. apply length_zero_iff_nil in F0. apply length_zero_iff_nil in L0. subst f l. simpl in Hp.
      apply Permutation_sym, Permutation_nil in Hp. subst order. exists h. split; auto. split.
      + cbn. repeat split; auto; simpl in *; lia.
      + apply (@own_stores h0 F h h d); auto.
    - rewrite Eb. destruct (@fill_ok b (size d) f order h cs Hb) as (h' & cs' & E' & L' & B' & C' & O' & W' & K').
      { intros i Hi. apply (Permutation_in _ Hp), in_seq in Hi. lia. }
      exists h'. split; auto. split.
      + cbn. rewrite app_length. repeat split; auto; try lia. right. exists b, cs'. repeat split; auto; [lia|]. intros i Hi.
        destruct (Nat.lt_ge_cases i (length l)) as [Hl|Hl].
        * rewrite K', nth_error_app1 by lia. apply Hv; auto.
        * rewrite nth_error_app2 by auto. replace i with (size d + (i - length l)) at 1 by lia. apply W'.
          eapply Permutation_in; [apply Permutation_sym; exact Hp|]. apply in_seq. lia.
      + apply (@own_stores h0 F h h' d); auto. { intros k Hk. apply O'. congruence. } { intros b' Eb' _. rewrite Eb in Eb'. inversion Eb'; subst. exists cs'. auto. }
  Qed.
  Lemma inserts_fill d f order : forall oh, fold_left (fun st i => match st, nth_error f i with Some st, Some v => insert v i st | _, _ => None end) order (option_map (fun h => (h, d)) oh)
    = option_map (fun h => (h, d)) (fill_loop (arr d) (size d) f order oh).
  Proof.
    unfold fill_loop. induction order as [|i order IH]; intros oh; cbn [fold_left]; auto. rewrite <- IH. f_equal. destruct oh as [h|]; cbn; auto.
    destruct (nth_error f i); auto.
  Qed.
  Lemma room_ge c len n : n + len <= room c len n.
  Proof. unfold room. destruct (Nat.ltb_spec c (n + len)); lia. Qed.
  Lemma push_fill h d v : push_back v (h, d) = option_map (fun h => (h, grow d 1)) (fill_loop (arr d) (size d) [v] [0] (Some h)).
  Proof. unfold push_back, fill_loop. cbn [fold_left nth_error]. now rewrite Nat.add_0_r. Qed.
  Lemma store_none h d l c i v : rep (h, d) l c -> c <= i -> store h (arr d) i v = None.
  Proof.
    intros (_ & _ & _ & [[En _]|(b & cs & Eb & Hb & Hcs & _)]) Hi; [now rewrite En|]. rewrite Eb. unfold store. rewrite Hb.
    destruct (Nat.ltb_spec i (length cs)); auto; lia.
  Qed.
  Lemma step_ok h0 F o st l c : op_ok o -> rep st l c -> own h0 F st ->
    match sem (l, c) o with
    | None => step st o = None
    | Some (l', c') => exists st', step st o = Some st' /\ rep st' l' c' /\ own h0 F st'
    end.
  Proof.
    intros Hok Hr Ho. destruct o as [s n|v|v pos|s1 s2 f|s1 s2 f|s v|]; cbn [sem step op_ok] in *.
    - now apply resize_ok.
    - destruct st as [h d]. rewrite push_fill. destruct (Nat.ltb_spec (length l) c) as [L|L].
      + destruct (@fill_rep h0 F h d l c [v] [0] Hr Ho) as (h' & E' & R' & O'); [simpl; lia|apply Permutation_refl|]. rewrite E'. cbn. eauto.
      + rewrite <- push_fill. unfold push_back. destruct Hr as (Sz & Hr') eqn:X. rewrite (@store_none h d l c (size d) v Hr) by lia. auto.
    - destruct st as [h d]. unfold insert. destruct Hr as (Sz & Hr') eqn:X. destruct (Nat.ltb_spec (length l + pos) c) as [L|L].
      + clear X. destruct Hr' as (Ca & Le & [[En E0]|(b & cs & Eb & Hb & Hcs & Hv)]); [lia|]. rewrite Eb.
        destruct (@store_ok h b cs (size d + pos) v Hb) as (h' & E' & L' & B' & O'); [lia|]. rewrite E'. cbn. eexists. split; [reflexivity|]. split.
        * cbn. repeat split; auto. right. exists b, (lset cs (size d + pos) (Some v)). repeat split; auto; [now rewrite length_lset|].
          intros i Hi. rewrite nth_error_lset_other by lia. auto.
        * apply (@own_stores h0 F h h' d); auto. { intros k Hk. apply O'. congruence. } { intros b' Eb' _. rewrite Eb in Eb'. inversion Eb'; subst. eexists; eauto. }
      + rewrite (@store_none h d l c (size d + pos) v Hr) by lia. auto.
    - destruct Hok as [H1 H2]. unfold copyIn. destruct (@resize_ok h0 F s1 (length f) st l c H1 Hr Ho) as ([h d] & E1 & R1 & O1). rewrite E1.
      destruct (@fill_rep h0 F h d l _ f (s2 (length f)) R1 O1) as (h' & E' & R' & O'); [pose proof (room_ge c (length l) (length f)); lia|apply H2|].
      rewrite E'. cbn. eauto.
    - destruct Hok as [H1 H2]. unfold bucket_update. destruct (@resize_ok h0 F s1 (length f) st l c H1 Hr Ho) as ([h d] & E1 & R1 & O1). rewrite E1.
      change (Some (h, d)) with (option_map (fun h => (h, d)) (Some h)). rewrite inserts_fill.
      destruct (@fill_rep h0 F h d l _ f (s2 (length f)) R1 O1) as (h' & E' & R' & O'); [pose proof (room_ge c (length l) (length f)); lia|apply H2|].
      rewrite E'. cbn. eauto.
    - unfold bucket_push. destruct (@resize_ok h0 F s 1 st l c Hok Hr Ho) as ([h d] & E1 & R1 & O1). rewrite E1, push_fill.
      destruct (@fill_rep h0 F h d l _ [v] [0] R1 O1) as (h' & E' & R' & O'); [pose proof (room_ge c (length l) 1); simpl; lia|apply Permutation_refl|].
      rewrite E'. cbn. eauto.
    - destruct st as [h d]. eexists. split; [reflexivity|]. cbn. split.
      + destruct Hr as (Sz & Ca & Le & Cases). cbn. repeat split; auto; [lia|]. destruct Cases as [Cn|(b & cs & Eb & Hb & Hcs & Hv)]; [left; auto|].
        right. exists b, cs. repeat split; auto. intros i Hi. simpl in Hi. lia.
      + apply (@own_stores h0 F h h d); auto.
  Qed.
  Lemma none_run ops : fold_left (fun (st : option (heap E * darr)) o => match st with None => None | Some st => step st o end) ops None = None.
  Proof. induction ops; simpl; auto. Qed.
  Lemma none_sem ops : fold_left (fun (s : option (list E * nat)) o => match s with None => None | Some s => sem s o end) ops None = None.
  Proof. induction ops; simpl; auto. Qed.
  Theorem run_ok h0 F ops : forall st l c, Forall op_ok ops -> rep st l c -> own h0 F st ->
    match sem_run ops (l, c) with
    | None => run ops st = None
    | Some (l', c') => exists st', run ops st = Some st' /\ rep st' l' c' /\ own h0 F st'
    end.
  Proof.
    unfold sem_run, run. induction ops as [|o ops IH]; intros st l c Hok Hr Ho; cbn [fold_left]; [eauto|].
    inversion Hok as [|? ? Ho1 Ho2]; subst. pose proof (@step_ok h0 F o st l c Ho1 Hr Ho) as Hs. destruct (sem (l, c) o) as [[l' c']|].
    - destruct Hs as (st' & Es & R' & O'). rewrite Es. apply IH; auto.
    - rewrite none_sem, Hs. apply none_run.
  Qed.
  Lemma rep_holds st l c : rep st l c -> holds st l c.
  Proof.
    destruct st as [h d]. intros (Sz & Ca & Le & Cases). unfold holds. cbn. repeat split; auto. intros i Hi.
    destruct Cases as [[_ E0]|(b & cs & Eb & Hb & Hcs & Hv)]; [lia|]. rewrite Eb. unfold load. rewrite Hb, (Hv i Hi). destruct (nth_error l i); auto.
  Qed.
  (* the three starts *)
  Lemma start0 h : rep (h, dyn_arr0) [] 0 /\ own h None (h, dyn_arr0).
  Proof.
    split; [cbn; repeat split; auto|]. cbn. repeat split; auto; try discriminate.
    intros [x Hx]. assert (b < length h) by (apply nth_error_Some; congruence). lia.
  Qed.
  Lemma start1 h s : rep (dyn_arr1 h s) [] s /\ own h None (dyn_arr1 h s).
  Proof.
    unfold dyn_arr1, new_array. split.
    - cbn. repeat split; auto; [lia|]. right. exists (length h), (repeat None s). rewrite nth_error_app2, Nat.sub_diag, repeat_length by lia. repeat split; auto. intros i Hi. lia.
    - cbn. rewrite app_length. split; [lia|]. split; [intros; now rewrite nth_error_app1|]. split; [discriminate|]. split; [|split; [discriminate|eauto]].
      intros b Hb. split.
      + intros [x Hx]. assert (b < length (h ++ [Some (repeat None s)])) by (apply nth_error_Some; congruence). rewrite app_length in H. simpl in H. f_equal. lia.
      + intros Eb. inversion Eb; subst. exists (repeat None s). now rewrite nth_error_app2, Nat.sub_diag by lia.
  Qed.
  Lemma start4 h b l tl : nth_error h b = Some (Some (map Some l ++ tl)) ->
    rep (h, dyn_arr4 (Some b) (length l) (length l + length tl) false) l (length l + length tl) /\ own h (Some b) (h, dyn_arr4 (Some b) (length l) (length l + length tl) false).
  Proof.
    intros Hb. assert (Hlt : b < length h) by (apply nth_error_Some; congruence). split.
    - cbn. repeat split; auto; [lia|]. right. exists b, (map Some l ++ tl). rewrite app_length, map_length. repeat split; auto. intros i Hi.
      rewrite nth_error_app1 by (now rewrite map_length). rewrite nth_error_map. destruct (nth_error l i) eqn:X; auto. apply nth_error_None in X. lia.
    - cbn. repeat split; auto; try discriminate.
      + inversion H; subst; auto.
      + inversion H; subst. eexists; eauto.
      + intros [x Hx]. assert (b0 < length h) by (apply nth_error_Some; congruence). lia.
      + intros Eb. inversion Eb; subst. lia.
  Qed.
  Lemma started_ok h0 F st l c : started h0 F st l c -> rep st l c /\ own h0 F st.
  Proof. intros H. destruct H; [apply start0|apply start1|now apply start4]. Qed.
  Lemma del_ok h0 F st l c : rep st l c -> own h0 F st ->
    exists h' d', del st = Some (h', d') /\ (forall b, length h0 <= b -> ~ live h' b) /\ (forall b, F = Some b -> live h' b) /\
      (forall b, b < length h0 -> F <> Some b -> nth_error h' b = nth_error h0 b) /\ del (h', d') = Some (h', d').
  Proof.
    destruct st as [h d]. intros (Sz & Ca & Le & Cases) (H1 & H2 & H3 & H4 & H5 & H6). unfold del. destruct (alloc d) eqn:Al.
    - destruct (H6 eq_refl) as (b & Eb & Hb0). destruct Cases as [[En _]|(b' & cs & Eb' & Hb & Hcs & Hv)]; [congruence|].
      rewrite Eb in Eb'. inversion Eb'; subst b'. unfold free_array. rewrite Eb, Hb, Hcs, Ca, Nat.eqb_refl. do 2 eexists. split; [reflexivity|]. cbn.
      assert (b < length h) by (apply nth_error_Some; congruence). repeat split.
      + intros k Hk [x Hx]. destruct (Nat.eq_dec k b) as [->|Hn]; [rewrite nth_error_lset_same in Hx by auto; discriminate|].
        rewrite nth_error_lset_other in Hx by auto. assert (arr d = Some k) by (apply H4; auto; exists x; auto). congruence.
      + intros k Ek. destruct (H3 k Ek) as [Hk [x Hx]]. exists x. rewrite nth_error_lset_other by lia. auto.
      + intros k Hk HF. rewrite nth_error_lset_other by lia. auto.
    - exists h, d. split; auto. rewrite Al. repeat split; auto.
      + intros k Hk Hlv. apply H4 in Hlv; auto. rewrite (H5 eq_refl) in Hlv. destruct (H3 k Hlv). lia.
      + intros k Ek. now destruct (H3 k Ek).
  Qed.
  Lemma loads_ok h p l : forall k, (forall i, i < length l -> load h p (k + i) = nth_error l i) -> loads h p (seq k (length l)) = Some l.
  Proof.
    induction l as [|v l IH]; intros k H; simpl; auto. specialize (H 0 ltac:(simpl; lia)) as H0. rewrite Nat.add_0_r in H0. rewrite H0. simpl.
    rewrite IH; auto. intros i Hi. replace (S k + i) with (k + S i) by lia. rewrite H by (simpl; lia). reflexivity.
  Qed.
  Lemma to_seq_ok st l c : rep st l c -> 0 < c -> exists st', to_seq st = Some (l, st') /\ fst st' = fst st /\ arr (snd st') = None /\ size (snd st') = 0 /\ capacity (snd st') = c.
  Proof.
    destruct st as [h d]. intros Hr Hc. pose proof (rep_holds Hr) as (Sz & _ & _ & Hv). destruct Hr as (_ & Ca & Le & [[_ E0]|(b & cs & Eb & _)]); [lia|].
    unfold to_seq. cbn in *. rewrite Sz, (@loads_ok h (arr d) l 0) by (intros; simpl; auto). rewrite Eb. eexists. split; [reflexivity|]. cbn. auto.
  Qed.
  (* cost *)
  Definition phi d := 2 * size d - capacity d.
  Lemma resize_cost s n (st st' : heap E * darr) : resize s n st = Some st' -> size (snd st') = size (snd st) /\
    moved (snd st') + (2 * (size (snd st) + n) - capacity (snd st')) <= moved (snd st) + phi (snd st) + 2 * n.
  Proof.
    destruct st as [h d]. unfold resize, phi. cbn [snd]. destruct (Nat.ltb_spec (capacity d) (n + size d)) as [L|L].
    - unfold new_array. destruct (copy_loop _ _ _ _); [|discriminate]. destruct (if alloc d then _ else _); intros H; inversion H; subst; cbn. split; auto. lia.
    - intros H; inversion H; subst. cbn. lia.
  Qed.
  Lemma step_cost (o : op E) st st' : (forall s n, o <> OResize _ s n) -> step st o = Some st' ->
    moved (snd st') + phi (snd st') <= moved (snd st) + phi (snd st) + 2 * appended o.
  Proof.
    intros Hno. destruct o as [s n|v|v pos|s1 s2 f|s1 s2 f|s v|]; cbn [step appended].
    - now destruct (Hno s n).
    - destruct st as [h d]. unfold push_back. destruct (store _ _ _ _); intros H; inversion H; subst. unfold phi. cbn. lia.
    - destruct st as [h d]. unfold insert. destruct (store _ _ _ _); intros H; inversion H; subst. cbn. lia.
    - unfold copyIn. destruct (resize s1 (length f) st) as [[h d]|] eqn:Er; [|discriminate]. apply resize_cost in Er as [Es Ec]. cbn in *.
      destruct (fill_loop _ _ _ _ _); intros H; inversion H; subst. unfold phi in *. cbn. rewrite Es in *. lia.
    - unfold bucket_update. destruct (resize s1 (length f) st) as [[h d]|] eqn:Er; [|discriminate]. apply resize_cost in Er as [Es Ec]. cbn in *.
      change (Some (h, d)) with (option_map (fun h => (h, d)) (Some h)). rewrite inserts_fill.
      destruct (fill_loop _ _ _ _ _); intros H; inversion H; subst. unfold phi in *. cbn. rewrite Es in *. lia.
    - unfold bucket_push. destruct (resize s 1 st) as [[h d]|] eqn:Er; [|discriminate]. apply resize_cost in Er as [Es Ec]. cbn in *.
      unfold push_back. destruct (store _ _ _ _); intros H; inversion H; subst. unfold phi in *. cbn in *. rewrite Es in *. lia.
    - intros H; inversion H; subst. unfold phi, clear. cbn. lia.
  Qed.
  Theorem run_cost (ops : list (op E)) : forall st st', (forall s n, ~ In (OResize _ s n) ops) -> run ops st = Some st' ->
    moved (snd st') + phi (snd st') <= moved (snd st) + phi (snd st) + 2 * total_appended ops.
  Proof.
    unfold run, total_appended. induction ops as [|o ops IH]; intros st st' Hno; cbn [fold_left map].
    - intros H; inversion H; subst. simpl. lia.
    - destruct (step st o) as [st1|] eqn:Es; [|rewrite none_run; discriminate]. intros H. apply IH in H; [|intros s n Hin; apply (Hno s n); now right].
      apply step_cost in Es; [|intros s n ->; apply (Hno s n); now left]. simpl. lia.
  Qed.
End P.
