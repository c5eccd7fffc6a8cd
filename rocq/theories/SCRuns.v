(* Runs of a search: one that ends, for every graph, and one that fills the table. *)
From Coq Require Import Permutation.
From Verif Require Import Base ListUtil VSModel EMModel EMSpec FAModel SCModel SCSearch.

Lemma lset_lset {A} (l : list A) i x y : lset (lset l i x) i y = lset l i y.
Proof. revert i. induction l as [|a l IH]; intros [|i]; simpl; auto. f_equal. auto. Qed.
Lemma stored_app v l T T' : stored v l (T ++ T') = stored v l T || stored v l T'.
Proof. apply existsb_app. Qed.
Lemma stored_false v l T : stored v l T = false <-> ~ In (v, l) T.
Proof. rewrite <- stored_In. destruct (stored v l T); intuition congruence. Qed.
Definition isnil {A} (l : list A) : bool := match l with [] => true | _ => false end.
Definition fresh (d : nat) (T : entries) (ls : list nat) : entries := map (pair d) (filter (fun l => negb (stored d l T)) ls).
Lemma fresh_len d T ls : length (fresh d T ls) <= length ls.
Proof. unfold fresh. rewrite map_length. apply filter_len_le. Qed.
Lemma fresh_In d T ls p : In p (fresh d T ls) <-> fst p = d /\ In (snd p) ls /\ ~ In p T.
Proof.
  unfold fresh. rewrite in_map_iff. destruct p as [a b]. simpl. split.
  - intros (x & E & H). injection E as <- <-. apply filter_In in H as [H1 H2]. apply negb_true_iff, stored_false in H2. auto.
  - intros (<- & H1 & H2). exists b. split; auto. apply filter_In. split; auto. apply negb_true_iff. now apply stored_false.
Qed.
Lemma NoDup_map_pair (d : nat) (ls : list nat) : NoDup ls -> NoDup (map (pair d) ls).
Proof. induction 1 as [|a l H H1 IH]; simpl; constructor; auto. rewrite in_map_iff. intros (x & E & Hx). injection E as ->. auto. Qed.
Lemma fresh_nodup d T ls : NoDup T -> NoDup ls -> NoDup (T ++ fresh d T ls).
Proof.
  intros HT Hl. apply NoDup_app_iff. split; auto. split.
  - apply NoDup_map_pair. now apply NoDup_filter.
  - intros p H1 H2. apply fresh_In in H2 as (_ & _ & H2). auto.
Qed.
Lemma labels_nodup v T : NoDup T -> NoDup (labels_of v T).
Proof.
  unfold labels_of. induction 1 as [|[a b] T H H1 IH]; simpl; [constructor|]. destruct (Nat.eqb_spec a v) as [->|E]; auto. simpl. constructor; auto.
  rewrite in_map_iff. intros ([x y] & E & Hx). simpl in E. subst y. apply filter_In in Hx as [Hx E]. simpl in E. apply Nat.eqb_eq in E. subst x. auto.
Qed.

Section Run.
  Variable outn : nat -> list nat.
  Variable L : nat -> label.
  Section Exec.
    Variable cs : list (nat * nat).
    Variable cap : nat.
    Lemma sexec_trans m ps m1 ps1 m2 ps2 : sexec L cs cap m ps m1 ps1 -> sexec L cs cap m1 ps1 m2 ps2 -> sexec L cs cap m ps m2 ps2.
    Proof. intros H. induction 1; auto. eapply se_step; eauto. Qed.
    Lemma sexec_one m ps i s d p m2 p2 : nth_error cs i = Some (s, d) -> nth_error ps i = Some p -> act L s d m p m2 p2 -> length (tab m2) < cap ->
      sexec L cs cap m ps m2 (lset ps i p2).
    Proof. intros. eapply se_step; eauto. constructor. Qed.
    Definition full (m : mem) (ps : list spc) : Prop := exists m1 ps1 i s d p m2 p2,
      sexec L cs cap m ps m1 ps1 /\ nth_error cs i = Some (s, d) /\ nth_error ps1 i = Some p /\ act L s d m1 p m2 p2 /\ cap <= length (tab m2).
    Lemma full_after m ps m1 ps1 : sexec L cs cap m ps m1 ps1 -> full m1 ps1 -> full m ps.
    Proof. intros H (m2 & ps2 & i & s & d & p & m3 & p3 & A & B). exists m2, ps2, i, s, d, p, m3, p3. split; auto. eapply sexec_trans; eauto. Qed.

    Lemma push ls : forall m ps i s d must seen ch, length (tab m) < cap -> nth_error cs i = Some (s, d) -> nth_error ps i = Some (SIter must seen ch) ->
      NoDup ls -> (forall l, In l ls -> ~ In l seen /\ In (s, l) (tab m)) ->
      (cap <= length (tab m ++ fresh d (tab m) ls) /\ full m ps) \/
      (length (tab m ++ fresh d (tab m) ls) < cap /\
       sexec L cs cap m ps {| tab := tab m ++ fresh d (tab m) ls; bits := bits m |} (lset ps i (SIter must (rev ls ++ seen) (ch || negb (isnil (fresh d (tab m) ls)))))).
    Proof.
      induction ls as [|l ls IH]; intros m ps i s d must seen ch Hlt Hc Hp Hn Hl.
      - right. unfold fresh. simpl. rewrite app_nil_r. split; auto. rewrite orb_false_r. destruct m. simpl.
        replace (lset ps i (SIter must seen ch)) with ps; [constructor|]. apply list_ext_nth_error. intros j. destruct (Nat.eq_dec i j) as [->|E].
        + rewrite nth_error_lset_same; [auto|]. apply nth_error_Some. congruence.
        + now rewrite nth_error_lset_other.
      - inversion Hn as [|? ? Hnl Hn']; subst. assert (Hi : i < length ps) by (apply nth_error_Some; congruence).
        destruct (Hl l (or_introl eq_refl)) as [Hl1 Hl2]. assert (Hs : stored s l (tab m) = true) by now apply stored_In.
        destruct (stored d l (tab m)) eqn:Ed.
        + assert (E : fresh d (tab m) (l :: ls) = fresh d (tab m) ls) by (unfold fresh; simpl; now rewrite Ed). rewrite E.
          set (ps1 := lset ps i (SIter must (l :: seen) ch)).
          assert (St : sexec L cs cap m ps m ps1) by (eapply sexec_one; eauto; now constructor).
          destruct (IH m ps1 i s d must (l :: seen) ch) as [[A B]|[A B]]; auto.
          * now apply nth_error_lset_same.
          * intros l' H'. destruct (Hl l' (or_intror H')) as [A B]. split; auto. intros [->|C]; auto.
          * left. split; auto. eapply full_after; eauto.
          * right. split; auto. eapply sexec_trans; [exact St|]. unfold ps1 in *. rewrite lset_lset in B. simpl. rewrite <- app_assoc. exact B.
        + set (m1 := {| tab := tab m ++ [(d, l)]; bits := bits m |}). set (ps1 := lset ps i (SIter must (l :: seen) true)).
          assert (E : tab m ++ fresh d (tab m) (l :: ls) = tab m1 ++ fresh d (tab m1) ls).
          { unfold fresh, m1. simpl. rewrite Ed. simpl. rewrite <- app_assoc. simpl. do 3 f_equal. apply filter_ext_in'. intros x Hx. rewrite stored_app. simpl.
            rewrite Nat.eqb_refl. destruct (Nat.eqb_spec l x) as [->|_]; [easy|]. simpl. now rewrite orb_false_r. }
          assert (Hact : act L s d m (SIter must seen ch) m1 (SIter must (l :: seen) true)) by now constructor.
          destruct (Nat.le_gt_cases cap (length (tab m1))) as [C|C].
          * left. split; [rewrite E, app_length; lia|]. exists m, ps, i, s, d, (SIter must seen ch), m1, (SIter must (l :: seen) true). repeat split; auto. constructor.
          * rewrite E. assert (St : sexec L cs cap m ps m1 ps1) by (eapply sexec_one; eauto).
            destruct (IH m1 ps1 i s d must (l :: seen) true) as [[A B]|[A B]]; auto.
            -- now apply nth_error_lset_same.
            -- intros l' H'. destruct (Hl l' (or_intror H')) as [A B]. split; [|unfold m1; simpl; apply in_app_iff; auto]. intros [->|D]; auto.
            -- left. split; auto. eapply full_after; eauto.
            -- right. split; auto. eapply sexec_trans; [exact St|]. unfold ps1 in B. rewrite lset_lset in B.
               assert (E2 : isnil (fresh d (tab m) (l :: ls)) = false) by (unfold fresh; simpl; now rewrite Ed).
               rewrite E2, orb_true_r. cbn [rev]. rewrite <- (app_assoc (rev ls)). exact B.
    Qed.
  End Exec.

  (* -- all calls start, then each runs to its end with the labels there were -- *)
  Section Round.
    Variable cs : list (nat * nat).
    Variable T : entries.
    Hypothesis HT : NoDup T.
    Definition begun (c : nat * nat) : spc := if leqb (L (fst c)) (L (snd c)) then SIter (labels_of (fst c) T) [] false else SDone false.
    Definition work (c : nat * nat) : nat := if leqb (L (fst c)) (L (snd c)) then length (labels_of (fst c) T) else 0.
    Variable cap : nat.
    Hypothesis Hcap : length T + list_sum (map work cs) < cap.

    Lemma all_begin b rest : forall pre, cs = pre ++ rest ->
      sexec L cs cap {| tab := T; bits := b |} (map begun pre ++ repeat SStart (length rest)) {| tab := T; bits := b |} (map begun cs).
    Proof.
      induction rest as [|[s d] rest IH]; intros pre E.
      - rewrite app_nil_r in *. subst pre. constructor.
      - eapply sexec_trans; [|apply (IH (pre ++ [(s, d)])); rewrite <- app_assoc; exact E].
        rewrite map_app. simpl. rewrite <- app_assoc. simpl.
        replace (map begun pre ++ begun (s, d) :: repeat SStart (length rest)) with (lset (map begun pre ++ SStart :: repeat SStart (length rest)) (length pre) (begun (s, d))).
        + eapply sexec_one with (s := s) (d := d) (p := SStart).
          * rewrite E, nth_error_app2, Nat.sub_diag; auto.
          * rewrite nth_error_app2; rewrite map_length; auto. now rewrite Nat.sub_diag.
          * unfold begun. simpl. destruct (leqb (L s) (L d)) eqn:El; [apply (@a_begin L s d {| tab := T; bits := b |}); auto|constructor; auto].
          * simpl. lia.
        + replace (length pre) with (length (map begun pre)) by apply map_length. apply lset_app_mid.
    Qed.
    Lemma all_end rest : forall pre m done, cs = pre ++ rest -> length done = length pre -> sfinished done ->
      NoDup (tab m) -> incl T (tab m) -> length (tab m) <= length T + list_sum (map work pre) ->
      (In (SDone true) done -> length T < length (tab m)) ->
      (forall p, In p (tab m) -> In p T \/ (In (fst p) (map snd cs) /\ In (snd p) (map snd T))) ->
      exists m' ps', sexec L cs cap m (done ++ map begun rest) m' ps' /\ sfinished ps' /\ NoDup (tab m') /\ incl T (tab m') /\
        (In (SDone true) ps' -> length T < length (tab m')) /\ (forall p, In p (tab m') -> In p T \/ (In (fst p) (map snd cs) /\ In (snd p) (map snd T))).
    Proof.
      induction rest as [|[s d] rest IH]; intros pre m done E Hd Hf Hn Hi Hlen Hgrow Hin.
      { rewrite app_nil_r. exists m, done. repeat split; auto. constructor. }
      assert (Hsum : list_sum (map work cs) = list_sum (map work pre) + (work (s, d) + list_sum (map work rest))) by (rewrite E, map_app, list_sum_app; reflexivity).
      assert (Hcall : nth_error cs (length pre) = Some (s, d)) by (rewrite E, nth_error_app2, Nat.sub_diag; auto).
      assert (Hnext : forall p', done ++ p' :: map begun rest = (done ++ [p']) ++ map begun rest) by (intros; now rewrite <- app_assoc).
      assert (Hfin : forall r, sfinished (done ++ [SDone r])) by (intros r; apply Forall_app; split; auto; constructor; eauto).
      assert (Hl1 : forall r : bool, length (done ++ [SDone r]) = length (pre ++ [(s, d)])) by (intros r; rewrite !app_length; simpl; lia).
      assert (Hw : list_sum (map work (pre ++ [(s, d)])) = list_sum (map work pre) + work (s, d)) by (rewrite map_app, list_sum_app; simpl; lia).
      simpl map. unfold begun at 1. simpl fst. simpl snd. destruct (leqb (L s) (L d)) eqn:El.
      2:{ rewrite Hnext. apply (IH (pre ++ [(s, d)])); auto; [now rewrite <- app_assoc|rewrite Hw; lia|].
          intros H. apply in_app_iff in H as [H|[H|[]]]; [auto|discriminate]. }
      assert (Hwk : work (s, d) = length (labels_of s T)) by (unfold work; simpl; now rewrite El).
      set (ls := labels_of s T) in *. set (ps := done ++ SIter ls [] false :: map begun rest).
      assert (Hat : nth_error ps (length pre) = Some (SIter ls [] false)) by (unfold ps; rewrite nth_error_app2, Hd, Nat.sub_diag by lia; auto).
      assert (Hset : forall p q, lset (done ++ p :: map begun rest) (length pre) q = done ++ q :: map begun rest) by (intros; rewrite <- Hd; apply lset_app_mid).
      assert (Hone : forall ma p mb q, act L s d ma p mb q -> length (tab mb) < cap -> sexec L cs cap ma (done ++ p :: map begun rest) mb (done ++ q :: map begun rest)).
      { intros ma p mb q Ha Hlt. rewrite <- (Hset p q). eapply sexec_one; eauto. rewrite nth_error_app2, Hd, Nat.sub_diag by lia. reflexivity. }
      pose proof (fresh_len d (tab m) ls) as Hfl.
      destruct (@push cs cap ls m ps (length pre) s d ls [] false ltac:(lia) Hcall Hat) as [[A _]|[A B]].
      { apply labels_nodup; auto. }
      { intros l Hl. split; auto. apply Hi. now apply labels_of_In. }
      { exfalso. rewrite app_length in A. lia. }
      unfold ps in B. rewrite Hset in B. simpl in B. set (m1 := {| tab := tab m ++ fresh d (tab m) ls; bits := bits m |}) in *.
      set (ch := negb (isnil (fresh d (tab m) ls))) in *.
      assert (B2 : sexec L cs cap m ps m1 (done ++ (if ch then SFlag else SDone false) :: map begun rest)).
      { eapply sexec_trans; [exact B|]. apply Hone; [|exact A].
        constructor. intros x Hx. rewrite app_nil_r. now apply -> in_rev. }
      assert (Hi1 : incl T (tab m1)) by (intros p Hp; apply in_app_iff; auto).
      assert (Hn1 : NoDup (tab m1)) by (apply fresh_nodup; auto; apply labels_nodup; auto).
      assert (Hlen1 : length (tab m1) <= length T + list_sum (map work (pre ++ [(s, d)]))) by (unfold m1; simpl; rewrite app_length, Hw; lia).
      assert (Hin1 : forall p, In p (tab m1) -> In p T \/ (In (fst p) (map snd cs) /\ In (snd p) (map snd T))).
      { intros p Hp. apply in_app_iff in Hp as [Hp|Hp]; auto. right. apply fresh_In in Hp as (P1 & P2 & _). split.
        - rewrite P1. apply in_map_iff. exists (s, d). split; auto. eapply nth_error_In; eauto.
        - apply labels_of_In in P2. apply in_map_iff. exists (s, snd p). auto. }
      destruct ch eqn:Ech.
      - (* the flag *)
        assert (Hgrow1 : length T < length (tab m1)).
        { unfold m1. simpl. rewrite app_length. destruct (fresh d (tab m) ls) eqn:Ef; [discriminate|]. simpl. assert (length T <= length (tab m)) by (apply NoDup_incl_length; auto). lia. }
        destruct (bits m1 d) eqn:Eb.
        + destruct (IH (pre ++ [(s, d)]) m1 (done ++ [SDone false])) as (m' & ps' & K1 & K); auto; [now rewrite <- app_assoc|].
          exists m', ps'. split; [|exact K]. rewrite <- Hnext in K1. eapply sexec_trans; [exact B2|]. eapply sexec_trans; [|exact K1].
          apply Hone; [now constructor|exact A].
        + set (m2 := {| tab := tab m1; bits := fset (bits m1) d true |}).
          destruct (IH (pre ++ [(s, d)]) m2 (done ++ [SDone true])) as (m' & ps' & K1 & K); auto; [now rewrite <- app_assoc|].
          exists m', ps'. split; [|exact K]. rewrite <- Hnext in K1. eapply sexec_trans; [exact B2|]. eapply sexec_trans; [|exact K1].
          apply Hone; [now constructor|exact A].
      - destruct (IH (pre ++ [(s, d)]) m1 (done ++ [SDone false])) as (m' & ps' & K1 & K); auto; [now rewrite <- app_assoc| |].
        { intros H. apply in_app_iff in H as [H|[H|[]]]; [|discriminate]. unfold m1. simpl. rewrite app_length. apply Hgrow in H. lia. }
        exists m', ps'. split; [|exact K]. rewrite <- Hnext in K1. eapply sexec_trans; [exact B2|exact K1].
    Qed.
    Lemma round_runs b : exists m' ps', sexec L cs cap {| tab := T; bits := b |} (repeat SStart (length cs)) m' ps' /\ sfinished ps' /\ NoDup (tab m') /\ incl T (tab m') /\
      (In (SDone true) ps' -> length T < length (tab m')) /\ (forall p, In p (tab m') -> In p T \/ (In (fst p) (map snd cs) /\ In (snd p) (map snd T))).
    Proof.
      destruct (all_end cs [] {| tab := T; bits := b |} (done := []) eq_refl eq_refl) as (m' & ps' & K1 & K); simpl; auto using incl_refl; try lia; try easy.
      { constructor. }
      exists m', ps'. split; [|exact K]. eapply sexec_trans; [apply (all_begin b cs [] eq_refl)|exact K1].
    Qed.
  End Round.

  Lemma work_scalls T F : list_sum (map (work T) (scalls outn L F)) <= increments outn L F T.
  Proof.
    unfold increments, scalls. induction F as [|v F IH]; [simpl; lia|]. cbn [flat_map map]. rewrite map_app, list_sum_app. change (list_sum (?a :: ?l)) with (a + list_sum l).
    apply Nat.add_le_mono; auto. clear IH. induction (outn v) as [|w ws IH]; [simpl; lia|]. cbn [filter].
    assert (E : leqb (L w) (L v) = leqb (L v) (L w)) by (apply Bool.eq_iff_eq_true; rewrite !leqb_eq; intuition).
    assert (W : work T (v, w) = if leqb (L w) (L v) then length (labels_of v T) else 0) by (unfold work; simpl; now rewrite E).
    destruct (negb (fst (L w))); cbn [map]; [change (list_sum (?a :: ?l)) with (a + list_sum l); rewrite W|]; destruct (leqb (L w) (L v)); cbn [length]; lia.
  Qed.
  Lemma resized_big cap T inc : T <> [] -> length T + inc < resized cap T inc.
  Proof.
    intros H. assert (X : 0 < length T) by (destruct T; [easy|simpl; lia]). unfold resized. destruct (Nat.ltb_spec cap (4 * (length T + inc))); [|lia].
    assert (Y : 10 * (length T + inc) <= 2 ^ Nat.log2_up (10 * (length T + inc))) by (apply Nat.log2_up_spec; lia). lia.
  Qed.
End Run.

Section Loop.
  Variable n : nat.
  Variable outn : nat -> list nat.
  Hypothesis Hn : forall v w, v < n -> In w (outn v) -> w < n.
  Variable L : nat -> label.
  Variables lo K : nat.
  Lemma loop_runs k : forall cap F m, n * K - length (tab m) < k -> (forall v, In v F -> v < n) -> tab m <> [] -> NoDup (tab m) ->
    (forall p, In p (tab m) -> fst p < n /\ lo <= snd p < lo + K) -> exists c T b, search_loop outn L cap F m (Some (c, T), b).
  Proof.
    induction k as [|k IH]; intros cap F m Hk HF Hne Hnd Hin; [lia|].
    destruct F as [|f F]; [exists cap, (tab m), (bits m); constructor|]. set (FF := f :: F) in *.
    assert (HFF : FF <> []) by easy.
    set (cap1 := resized cap (tab m) (increments outn L FF (tab m))).
    destruct (@round_runs L (scalls outn L FF) (tab m) Hnd cap1) with (b := unflag FF (bits m)) as (m' & ps' & E & Hf & Hnd' & Hi & Hg & Hin').
    { pose proof (@work_scalls outn L (tab m) FF). pose proof (@resized_big cap (tab m) (increments outn L FF (tab m)) Hne). unfold cap1. lia. }
    assert (Hin2 : forall p, In p (tab m') -> fst p < n /\ lo <= snd p < lo + K).
    { intros p Hp. destruct (Hin' p Hp) as [H|[H1 H2]]; auto. split.
      - apply in_map_iff in H1 as ([s d] & E1 & H1). simpl in E1. rewrite <- E1. apply in_scalls in H1 as (H1 & H3 & _). eauto.
      - apply in_map_iff in H2 as (q & E2 & H2). rewrite <- E2. now apply Hin. }
    set (F' := soutput (scalls outn L FF) ps').
    destruct F' as [|x F2] eqn:EF.
    - exists cap1, (tab m'), (bits m'). eapply sl_round with (F' := []) (ps := ps') (m1 := m'); auto; [unfold F' in EF; rewrite EF; constructor|constructor].
    - assert (Hx : forall v, In v F' -> In (SDone true) ps' /\ v < n).
      { intros v Hv. unfold F', soutput in Hv. apply in_flat_map in Hv as ([[s d] p] & H1 & H2). simpl in H2. destruct p as [| | |[|]]; try contradiction. destruct H2 as [<-|[]].
        split; [eapply in_combine_r; eauto|]. apply in_combine_l in H1. apply in_scalls in H1 as (H1 & H3 & _). eauto. }
      assert (Hgr : length (tab m) < length (tab m')) by (apply Hg; apply (Hx x); rewrite EF; now left).
      assert (Hle : length (tab m') <= n * K).
      { transitivity (length (list_prod (seq 0 n) (seq lo K))); [|rewrite prod_length, !seq_length; auto]. apply NoDup_incl_length; auto.
        intros [a b] Hp. apply Hin2 in Hp. simpl in Hp. apply in_prod; apply in_seq; lia. }
      destruct (IH cap1 F' m') as (c & T & b & H); auto; [lia|intros v Hv; now apply Hx|destruct (tab m'); [simpl in Hgr; lia|easy]|].
      exists c, T, b. eapply sl_round with (F' := F') (ps := ps') (m1 := m'); auto.
  Qed.
End Loop.
Lemma combine_nodup {A B} (l : list A) (k : list B) : NoDup k -> NoDup (combine l k).
Proof.
  intros H. revert l. induction H as [|b k H H1 IH]; intros [|a l]; simpl; constructor; auto. intros X. apply in_combine_r in X. auto.
Qed.
Lemma multi_runs n outn L b centers off : (forall v w, v < n -> In w (outn v) -> w < n) -> (forall v, In v centers -> v < n) -> centers <> [] ->
  exists c T b', multi_search outn L b centers off (Some (c, T), b').
Proof.
  intros Hn Hc Hne. set (T0 := combine centers (seq off (length centers))).
  destruct (@loop_runs n outn Hn L off (length centers) (S (n * length centers - length T0)) (start_size (length centers)) centers {| tab := T0; bits := b |}) as (c & T & b' & H); simpl; auto.
  - unfold T0. destruct centers; [easy|]. simpl. discriminate.
  - apply combine_nodup, seq_NoDup.
  - intros [v l] H. pose proof (in_combine_l _ _ _ _ H). apply in_combine_r, in_seq in H. simpl. auto.
  - exists c, T, b'. exists T0. split; auto.
Qed.

(* -- a path whose vertices are all centres: the labels move along it in one round -- *)
  Lemma labels_app v T T' : labels_of v (T ++ T') = labels_of v T ++ labels_of v T'.
  Proof. unfold labels_of. now rewrite filter_app, map_app. Qed.
  Lemma labels_pair v d ls : labels_of v (map (pair d) ls) = if d =? v then ls else [].
  Proof. unfold labels_of. induction ls as [|l ls IH]; simpl; [now destruct (d =? v)|]. destruct (d =? v); simpl; congruence. Qed.
  Lemma labels_T0 k o v : forall a, labels_of v (combine (seq a k) (seq o k)) = if (a <=? v) && (v <? a + k) then [o + (v - a)] else [].
  Proof.
    revert o. induction k as [|k IH]; intros o a; simpl.
    - rewrite Nat.add_0_r. destruct (Nat.leb_spec a v), (Nat.ltb_spec v a); auto; lia.
    - unfold labels_of in *. simpl. destruct (Nat.eqb_spec a v) as [->|E]; simpl; rewrite IH.
      + destruct (Nat.leb_spec v v), (Nat.ltb_spec v (v + S k)), (Nat.leb_spec (S v) v); simpl; try lia. f_equal. lia.
      + destruct (Nat.leb_spec (S a) v), (Nat.ltb_spec v (S a + k)), (Nat.leb_spec a v), (Nat.ltb_spec v (a + S k)); simpl; try lia; auto. f_equal. lia.
  Qed.
Section Cascade.
  Variable L : nat -> label.
  Variables K off cap : nat.
  Hypothesis HL : forall v, 1 <= v <= K -> L v = L 1.
  Hypothesis HK : 1 <= K < cap.
  Let cs := map (fun j => (j + 2, j + 1)) (seq 0 (K - 1)).
  Let T0 := combine (seq 1 K) (seq off K).
  Lemma cascade_at b a : a <= K - 1 -> full L cs cap {| tab := T0; bits := b |} (repeat SStart (K - 1)) \/
    exists T ps ls, sexec L cs cap {| tab := T0; bits := b |} (repeat SStart (K - 1)) {| tab := T; bits := b |} ps /\
      (forall i, i < K - 1 - a -> nth_error ps i = Some SStart) /\ (forall v, 1 <= v <= K - 1 - a -> labels_of v T = [off + v - 1]) /\
      labels_of (K - a) T = ls /\ NoDup ls /\ length ls = a + 1 /\ (forall l, In l ls -> off + (K - 1 - a) <= l) /\ 2 * length T = 2 * K + a * (a + 1) /\ length T < cap.
  Proof.
    induction a as [|a IH]; intros Ha.
    - right. exists T0, (repeat SStart (K - 1)), [off + (K - 1)]. split; [constructor|]. split; [intros i Hi; apply nth_error_repeat; lia|].
      assert (HT : forall v, 1 <= v <= K -> labels_of v T0 = [off + v - 1]).
      { intros v Hv. unfold T0. rewrite labels_T0. destruct (Nat.leb_spec 1 v), (Nat.ltb_spec v (1 + K)); try lia. simpl. f_equal. lia. }
      split; [intros v Hv; apply HT; lia|]. split; [rewrite HT by lia; f_equal; lia|]. split; [repeat constructor; auto|]. split; auto. split; [intros l [<-|[]]; lia|].
      unfold T0. rewrite combine_length, !seq_length. lia.
    - destruct IH as [H|(T & ps & ls & E & H1 & H2 & H3 & H4 & H5 & H6 & H7 & H8)]; [lia|now left|].
      set (j := K - 2 - a). assert (Hj : K - 1 - a = j + 1) by (unfold j; lia). assert (Hj' : K - a = j + 2) by (unfold j; lia). rewrite Hj, Hj' in *.
      assert (Hc : nth_error cs j = Some (j + 2, j + 1)).
      { unfold cs. rewrite nth_error_map. rewrite (nth_error_nth' _ 0) by (rewrite seq_length; unfold j; lia). simpl. rewrite seq_nth by (unfold j; lia). reflexivity. }
      assert (Hp : nth_error ps j = Some SStart) by (apply H1; lia). assert (Hjl : j < length ps) by (apply nth_error_Some; congruence).
      set (m := {| tab := T; bits := b |}) in *.
      assert (E1 : sexec L cs cap m ps m (lset ps j (SIter ls [] false))).
      { eapply sexec_one; eauto. replace ls with (labels_of (j + 2) (tab m)) by exact H3. apply (@a_begin L (j + 2) (j + 1) m). apply leqb_eq. rewrite (@HL (j + 2)), (@HL (j + 1)) by (unfold j; lia). auto. }
      assert (Hd : labels_of (j + 1) T = [off + (j + 1) - 1]) by (apply H2; lia).
      assert (Hfr : fresh (j + 1) T ls = map (pair (j + 1)) ls).
      { unfold fresh. f_equal. apply filter_all. intros l Hl. apply negb_true_iff, stored_false. rewrite <- labels_of_In, Hd. intros [X|[]]. apply H6 in Hl. lia. }
      destruct (@push L cs cap ls m (lset ps j (SIter ls [] false)) j (j + 2) (j + 1) ls [] false) as [[A B]|[A B]]; auto.
      + now apply nth_error_lset_same.
      + intros l Hl. split; auto. apply labels_of_In. simpl. now rewrite H3.
      + left. eapply full_after; [|eapply full_after; [exact E1|exact B]]. exact E.
      + right. rewrite lset_lset in B. simpl tab in A, B. rewrite Hfr in A, B.
        exists (T ++ map (pair (j + 1)) ls), (lset ps j (SIter ls (rev ls ++ []) (false || negb (isnil (map (pair (j + 1)) ls))))), ((off + j) :: ls).
        replace (K - 1 - S a) with j by (unfold j; lia). replace (K - S a) with (j + 1) by (unfold j; lia).
        split; [eapply sexec_trans; [exact E|]; eapply sexec_trans; [exact E1|exact B]|].
        split; [intros i Hi; rewrite nth_error_lset_other by lia; apply H1; lia|].
        split; [intros v Hv; rewrite labels_app, labels_pair, H2 by lia; destruct (Nat.eqb_spec (j + 1) v); [lia|apply app_nil_r]|].
        split; [rewrite labels_app, labels_pair, Hd, Nat.eqb_refl; simpl; f_equal; lia|].
        split; [constructor; auto; intros Hl; apply H6 in Hl; lia|].
        split; [simpl; lia|]. split; [intros l [<-|Hl]; [lia|apply H6 in Hl; lia]|].
        rewrite app_length, map_length in A |- *. split; [nia|auto].
  Qed.
  Lemma cascade b : 2 * cap <= K * (K + 1) -> full L cs cap {| tab := T0; bits := b |} (repeat SStart (K - 1)).
  Proof.
    intros H. destruct (cascade_at b (a := K - 1)) as [X|(T & ps & ls & E & H1 & H2 & H3 & H4 & H5 & H6 & H7 & H8)]; [auto|auto|].
    exfalso. replace (K - 1 + 1) with K in H7 by lia. assert ((K - 1) * K = K * K - K) by nia. nia.
  Qed.
End Cascade.
