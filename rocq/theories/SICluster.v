(* The clusters: cores, then the vertices attached to them *)
From Verif Require Import Base ListUtil UFSpec UFRoots UFModel UFWait SISpec SIModel SIUF SIProofs.
From Coq Require Import ZArith Permutation Sorted Relation_Operators.
Local Open Scope nat_scope.
Unset Strict Implicit.

Lemma mem_In l x : SIModel.mem l x = true <-> In x l.
Proof.
  unfold SIModel.mem. rewrite existsb_exists. split.
  - intros (y & Hy & E). apply Nat.eqb_eq in E. now subst.
  - intros H. exists x. split; auto. apply Nat.eqb_refl.
Qed.
Lemma exec_snoc n sched t s : exec n (sched ++ [t]) s = sys_step n (exec n sched s) t.
Proof. unfold exec. now rewrite fold_left_app. Qed.

(* attaching vertices to any core *)
Section AttachAny.
  Variables n mx : nat.
  Variable L : nat -> nat.
  Variable ps : list (nat * nat).
  Variable C : nat -> Prop.
  Hypothesis Hps : forall c v, In (c, v) ps -> C c /\ c < n /\ v < n.
  Hypothesis HC : forall c, C c -> L c <> mx.
  Hypothesis HN : forall v, ~ C v -> L v = mx.
  Hypothesis Cdec : forall v, C v \/ ~ C v.
  Definition attach2 (v c : nat) : prog := Rd v (fun x => if x =? mx then Cas v mx c (fun _ => Ret 0) else Ret 0).
  Definition form (m : nat -> nat) (c v : nat) (k : nat) (p : prog) : Prop :=
    match k with
    | 3 => p = attach mx (c, v)
    | 2 => p = attach2 v (L c)
    | 1 => p = Cas v mx (L c) (fun _ => Ret 0)
    | _ => p = Ret 0 /\ m v <> mx
    end.
  Record ainv (sched : list nat) (s : sys) : Prop := {
    a_core : forall x, C x -> par (fst s) x = L x;
    a_other : forall x, ~ C x -> par (fst s) x = mx \/ exists c, In (c, x) ps /\ par (fst s) x = L c;
    a_len : length (snd s) = length ps;
    a_thread : forall t p st, nth_error (snd s) t = Some (p, st) -> st = [] /\ exists c v k, nth_error ps t = Some (c, v) /\ k <= 3 - count_occ Nat.eq_dec sched t /\ form (par (fst s)) c v k p }.
  Lemma form_up m m' c v k p : (m v <> mx -> m' v <> mx) -> form m c v k p -> form m' c v k p.
  Proof. intros H. destruct k as [|[|[|[|k]]]]; simpl; auto; intros [A B]; auto. Qed.
  Lemma attach_inv sched : ainv sched (exec n sched (init L (map (attach mx) ps))).
  Proof.
    induction sched as [|t sched IH] using rev_ind.
    - split; cbn.
      + auto.
      + intros x Hx. left. auto.
      + now rewrite !map_length.
      + intros t p st E. rewrite map_map, nth_error_map in E. destruct (nth_error ps t) as [[c v]|] eqn:Et; [|discriminate]. injection E as <- <-. split; auto. exists c, v, 3. split; auto. split; [lia|]. reflexivity.
    - rewrite exec_snoc. set (s := exec n sched (init L (map (attach mx) ps))) in *. destruct IH as [A1 A2 A3 A4]. unfold sys_step.
      assert (Cnt : forall t', count_occ Nat.eq_dec (sched ++ [t]) t' = count_occ Nat.eq_dec sched t' + if Nat.eq_dec t t' then 1 else 0) by (intros t'; rewrite count_occ_app; simpl; destruct (Nat.eq_dec t t'); auto).
      destruct (nth_error (snd s) t) as [[p st]|] eqn:E.
      2:{ split; auto. intros t' p st E'. destruct (A4 t' p st E') as (S & c & v & k & B1 & B2 & B3). split; auto. exists c, v, k. split; auto. split; auto. rewrite Cnt. destruct (Nat.eq_dec t t') as [<-|]; [congruence|lia]. }
      destruct (A4 t p st E) as (-> & c & v & k & B1 & B2 & B3). destruct (Hps (nth_error_In _ _ B1)) as (Hc & Lc & Lv).
      assert (Done : forall m' k', (forall x, par m' x = par (fst s) x \/ (x = v /\ par (fst s) v = mx /\ par m' v = L c)) -> k' <= 3 - count_occ Nat.eq_dec (sched ++ [t]) t ->
        forall q, form (par m') c v k' q -> ainv (sched ++ [t]) (m', lset (snd s) t (q, []))).
      { intros m' k' Hm Hk q Hq. split; cbn [fst snd].
        - intros x Hx. destruct (Hm x) as [->|(-> & E1 & E2)]; auto. exfalso. rewrite (A1 v Hx) in E1. now apply (HC Hx).
        - intros x Hx. destruct (Hm x) as [->|(-> & E1 & E2)]; auto. right. exists c. split; auto. now apply nth_error_In in B1.
        - now rewrite length_lset.
        - intros t' p' st' E'. destruct (Nat.eq_dec t' t) as [->|Ht].
          + rewrite nth_error_lset_same in E' by (apply nth_error_Some; congruence). injection E' as <- <-. split; auto. exists c, v, k'. auto.
          + rewrite nth_error_lset_other in E' by auto. destruct (A4 t' p' st' E') as (S & c' & v' & k'' & D1 & D2 & D3). split; auto. exists c', v', k''. split; auto. split; [rewrite Cnt; destruct (Nat.eq_dec t t'); [congruence|lia]|].
            eapply form_up; [|exact D3]. intros Hn. destruct (Hm v') as [->|(-> & E1 & E2)]; auto. }
      assert (Ck : 3 - count_occ Nat.eq_dec (sched ++ [t]) t = 3 - count_occ Nat.eq_dec sched t - 1) by (rewrite Cnt; destruct (Nat.eq_dec t t); [lia|congruence]).
      assert (Bc : (c <? n) = true) by now apply Nat.ltb_lt. assert (Bv : (v <? n) = true) by now apply Nat.ltb_lt.
      destruct k as [|[|[|[|k]]]]; cbn [form] in B3; [| | | |lia].
      + destruct B3 as [-> Hv]. cbn [tstep]. apply (Done (fst s) 0); [auto|lia|]. split; auto.
      + subst p. cbn [tstep]. rewrite Bv. destruct (Nat.eqb_spec (par (fst s) v) mx) as [Ev|Ev].
        * apply (Done (set_par (fst s) v (L c)) 0); [|lia|].
          -- intros x. cbn [par set_par]. destruct (Nat.eq_dec x v) as [->|Hx]; [right|left; now apply fset_other]. rewrite fset_same. auto.
          -- split; auto. cbn [par set_par]. rewrite fset_same. now apply HC.
        * apply (Done (fst s) 0); [auto|lia|]. split; auto.
      + subst p. unfold attach2. cbn [tstep]. rewrite Bv. destruct (Nat.eqb_spec (par (fst s) v) mx) as [Ev|Ev].
        * apply (Done (fst s) 1); [auto|lia|]. reflexivity.
        * apply (Done (fst s) 0); [auto|lia|]. split; auto.
      + subst p. unfold attach. cbn [tstep fst snd]. rewrite Bc. apply (Done (fst s) 2); [auto|lia|]. cbn [form]. unfold attach2. rewrite (A1 c Hc). reflexivity.
  Qed.
  Theorem attach_any_ok sched : let s := exec n sched (init L (map (attach mx) ps)) in finished s ->
    (forall x, C x -> par (fst s) x = L x) /\
    (forall x, ~ C x -> (exists c, In (c, x) ps /\ par (fst s) x = L c) \/ ((forall c, ~ In (c, x) ps) /\ par (fst s) x = mx)).
  Proof.
    intros s Hf. destruct (attach_inv sched) as [A1 A2 A3 A4]. fold s in A1, A2, A3, A4. split; auto. intros x Hx. destruct (A2 x Hx) as [E|H]; auto.
    right. split; auto. intros c Hc. apply In_nth_error in Hc as (t & Et). destruct (Hf t) as (r & Hr); [rewrite A3; apply nth_error_Some; congruence|].
    destruct (A4 t _ _ Hr) as (_ & c' & v' & k & B1 & _ & B3). rewrite Et in B1. injection B1 as <- <-. destruct k as [|[|[|[|k]]]]; cbn [form] in B3; try discriminate; destruct B3; congruence.
  Qed.
  Theorem attach_any_ends sched : (forall t, t < length ps -> 3 <= count_occ Nat.eq_dec sched t) -> finished (exec n sched (init L (map (attach mx) ps))).
  Proof.
    intros Hs t Ht. destruct (attach_inv sched) as [A1 A2 A3 A4]. rewrite A3 in Ht. specialize (Hs t Ht). destruct (nth_error (snd (exec n sched (init L (map (attach mx) ps)))) t) as [[p st]|] eqn:E; [|apply nth_error_None in E; rewrite A3 in E; lia].
    destruct (A4 t p st E) as (-> & c & v & k & B1 & B2 & B3). assert (k = 0) by lia. subst k. destruct B3 as [-> _]. exists 0. exact E.
  Qed.
End AttachAny.

(* attaching vertices to the most similar core *)
Section AttachBest.
  Variable mx : nat.
  Variable ts : list (nat * nat * Z).
  Hypothesis Hpos : forall c v s, In (c, v, s) ts -> (-1 < s)%Z.
  Definition start : tentative * list dthread := (no_attachment mx, map (fun x => (x, DRead)) ts).
  Definition beats (s : Z) (c : nat) (x : Z * nat) : Prop := (fst x < s)%Z \/ (fst x = s /\ c < snd x).
  Lemma better_iff s c x : better s c x = true <-> beats s c x.
  Proof.
    unfold better, beats. rewrite orb_true_iff, andb_true_iff, Z.ltb_lt, Z.eqb_eq, Nat.ltb_lt. intuition.
  Qed.
  Lemma pair_eqb_iff a b : pair_eqb a b = true <-> a = b.
  Proof.
    unfold pair_eqb. destruct a as [a1 a2], b as [b1 b2]. cbn. rewrite andb_true_iff, Z.eqb_eq, Nat.eqb_eq. split; [intros [-> ->]; auto|intros E; injection E; auto].
  Qed.
  Definition live (th : dthread) : bool := match snd th with DDone => false | _ => true end.
  Definition wait (T : tentative) (th : dthread) : nat :=
    match snd th with DRead => 2 | DCas cur => if pair_eqb (T (snd (fst (fst th)))) cur then 1 else 3 | DDone => 0 end.
  Record dinv (sched : list nat) (s : tentative * list dthread) : Prop := {
    d_threads : map fst (snd s) = ts;
    d_val : forall v, fst s v = ((-1)%Z, mx) \/ exists c z, In (c, v, z) ts /\ fst s v = (z, c);
    d_cas : forall c v z cur, In ((c, v, z), DCas cur) (snd s) -> beats z c cur;
    d_done : forall c v z, In ((c, v, z), DDone) (snd s) -> ~ beats z c (fst s v);
    d_wait : forall t th, nth_error (snd s) t = Some th -> live th = true ->
      count_occ Nat.eq_dec sched t + 2 * length (filter live (snd s)) + wait (fst s) th <= 2 * length ts + 2 }.
  Lemma In_lset {A} (l : list A) t x y : In y (lset l t x) -> y = x \/ In y l.
  Proof.
    intros H. apply In_nth_error in H as (i & Hi). destruct (Nat.eq_dec i t) as [->|Hn].
    - destruct (Nat.lt_ge_cases t (length l)) as [Hl|Hl].
      + rewrite nth_error_lset_same in Hi by auto. left. congruence.
      + assert (nth_error (lset l t x) t = None) by (apply nth_error_None; now rewrite length_lset). congruence.
    - rewrite nth_error_lset_other in Hi by auto. right. now apply nth_error_In in Hi.
  Qed.
  Lemma live_lset (l : list dthread) : forall t x th, nth_error l t = Some th -> 
    length (filter live (lset l t x)) + (if live th then 1 else 0) = length (filter live l) + (if live x then 1 else 0).
  Proof.
    induction l as [|y l IH]; intros t x th E; destruct t as [|t]; cbn [nth_error] in E; try discriminate.
    - injection E as ->. cbn [lset filter]. destruct (live th), (live x); cbn [length]; lia.
    - cbn [lset filter]. specialize (IH _ x _ E). destruct (live y); cbn [length]; lia.
  Qed.
  Lemma map_lset (l : list dthread) : forall t x th, nth_error l t = Some th -> fst x = fst th -> map fst (lset l t x) = map fst l.
  Proof.
    induction l as [|y l IH]; intros t x th E H; destruct t as [|t]; cbn [nth_error] in E; try discriminate.
    - injection E as ->. cbn. now rewrite H.
    - cbn. f_equal. eauto.
  Qed.
  Lemma dexec_snoc sched t s : dexec (sched ++ [t]) s = dsys_step (dexec sched s) t.
  Proof. unfold dexec. now rewrite fold_left_app. Qed.
  Lemma filter_live_start : filter live (snd start) = snd start.
  Proof. apply filter_all. intros x Hx. apply in_map_iff in Hx as (y & <- & _). reflexivity. Qed.
  Lemma d_inv sched : dinv sched (dexec sched start).
  Proof.
    induction sched as [|t sched IH] using rev_ind.
    - split; cbn [dexec fold_left fst snd].
      + unfold start. cbn. rewrite map_map. apply map_id.
      + left. reflexivity.
      + intros c v z cur H. apply in_map_iff in H as (y & E & _). discriminate.
      + intros c v z H. apply in_map_iff in H as (y & E & _). discriminate.
      + intros t th E _. rewrite filter_live_start. unfold start in *. cbn [snd fst] in *. rewrite map_length. rewrite nth_error_map in E. destruct (nth_error ts t); [|discriminate]. injection E as <-. cbn. lia.
    - rewrite dexec_snoc. set (s := dexec sched start) in *. destruct IH as [D1 D2 D3 D4 D5]. unfold dsys_step.
      assert (Cnt : forall t', count_occ Nat.eq_dec (sched ++ [t]) t' = count_occ Nat.eq_dec sched t' + if Nat.eq_dec t t' then 1 else 0) by (intros t'; rewrite count_occ_app; simpl; destruct (Nat.eq_dec t t'); auto).
      destruct (nth_error (snd s) t) as [th|] eqn:E.
      2:{ split; auto. intros t' th' E' Hl. rewrite Cnt. destruct (Nat.eq_dec t t') as [<-|]; [congruence|]. specialize (D5 t' th' E' Hl). lia. }
      destruct th as [[[c v] z] st]. cbn [dstep].
      assert (Lt : t < length (snd s)) by (apply nth_error_Some; congruence).
      assert (It : In (c, v, z) ts) by (rewrite <- D1; apply in_map_iff; exists ((c, v, z), st); split; auto; now apply nth_error_In in E).
      assert (Nolive : live ((c, v, z), st) = true -> count_occ Nat.eq_dec sched t + 2 * length (filter live (snd s)) + wait (fst s) ((c, v, z), st) <= 2 * length ts + 2) by (apply D5; auto).
      assert (Keep : forall st', (live ((c, v, z), st') = true -> live ((c, v, z), st) = true /\ 1 + wait (fst s) ((c, v, z), st') <= wait (fst s) ((c, v, z), st)) ->
        (forall cur, st' = DCas cur -> beats z c cur) -> (st' = DDone -> ~ beats z c (fst s v)) -> dinv (sched ++ [t]) (fst s, lset (snd s) t ((c, v, z), st'))).
      { intros st' Hlv Hcas Hdone. split; cbn [fst snd].
        - rewrite (map_lset (l := snd s) (t := t) (th := ((c, v, z), st))); auto.
        - exact D2.
        - intros c' v' z' cur H. apply In_lset in H as [H|H]; [|eauto]. injection H as -> -> -> H. eauto.
        - intros c' v' z' H. apply In_lset in H as [H|H]; [|eauto]. injection H as -> -> -> H. eauto.
        - intros t' th' E' Hl. pose proof (@live_lset (snd s) t ((c, v, z), st') _ E) as X. rewrite Cnt. destruct (Nat.eq_dec t t') as [<-|Ht].
          + rewrite nth_error_lset_same in E' by auto. injection E' as <-. destruct (Hlv Hl) as [H1 H2]. specialize (Nolive H1). rewrite H1, Hl in X. lia.
          + rewrite nth_error_lset_other in E' by auto. specialize (D5 t' th' E' Hl). destruct (live ((c, v, z), st')) eqn:E1; [destruct (Hlv eq_refl) as [H1 _]; rewrite H1 in X; lia|]. destruct (live ((c, v, z), st)); lia. }
      destruct st as [|cur|].
      + destruct (better z c (fst s v)) eqn:Eb.
        * apply Keep.
          -- intros _. split; auto. unfold wait. cbn [fst snd]. rewrite (proj2 (pair_eqb_iff _ _) eq_refl). lia.
          -- intros cur H. injection H as <-. now apply better_iff.
          -- discriminate.
        * apply Keep; try discriminate. intros _ H. apply better_iff in H. congruence.
      + destruct (pair_eqb (fst s v) cur) eqn:Ec.
        * apply pair_eqb_iff in Ec. assert (Hb : beats z c (fst s v)) by (rewrite Ec; eapply D3; apply nth_error_In in E; exact E).
          split; cbn [fst snd].
          -- rewrite (map_lset (l := snd s) (t := t) (th := ((c, v, z), DCas cur))); auto.
          -- intros v'. destruct (Nat.eq_dec v' v) as [->|Hv]; [rewrite fset_same; right; eauto|rewrite fset_other by auto; auto].
          -- intros c' v' z' cur' H. apply In_lset in H as [H|H]; [discriminate|eauto].
          -- intros c' v' z' H. destruct (Nat.eq_dec v' v) as [->|Hv].
             ++ rewrite fset_same. apply In_lset in H as [H|H].
                ** injection H as -> ->. unfold beats. cbn. lia.
                ** specialize (D4 _ _ _ H). unfold beats in *. cbn [fst snd]. lia.
             ++ rewrite fset_other by auto. apply In_lset in H as [H|H]; [congruence|eauto].
          -- intros t' th' E' Hl. pose proof (@live_lset (snd s) t ((c, v, z), DDone) _ E) as X. cbn [live snd] in X. rewrite Cnt. destruct (Nat.eq_dec t t') as [<-|Ht].
             ++ rewrite nth_error_lset_same in E' by auto. injection E' as <-. discriminate.
             ++ rewrite nth_error_lset_other in E' by auto. specialize (D5 t' th' E' Hl). assert (W : wait (fset (fst s) v (z, c)) th' <= wait (fst s) th' + 2) by (unfold wait; destruct (snd th') as [|cur'|]; [lia| |lia]; destruct (pair_eqb _ cur'), (pair_eqb _ cur'); lia). lia.
        * apply Keep; try discriminate. intros _. split; auto. unfold wait. cbn [fst snd]. rewrite Ec. lia.
      + apply Keep; try discriminate. intros _. apply D4. now apply nth_error_In in E.
  Qed.
  Theorem best_ok sched : dfinished (dexec sched start) -> forall v,
    (exists c z, In (c, v, z) ts /\ fst (dexec sched start) v = (z, c) /\ forall c' z', In (c', v, z') ts -> (z' < z)%Z \/ (z' = z /\ c <= c')) \/
    ((forall c z, ~ In (c, v, z) ts) /\ fst (dexec sched start) v = ((-1)%Z, mx)).
  Proof.
    intros Hf v. destruct (d_inv sched) as [D1 D2 _ D4 _]. set (s := dexec sched start) in *.
    assert (D : forall c z, In (c, v, z) ts -> ~ beats z c (fst s v)).
    { intros c z H. rewrite <- D1 in H. apply in_map_iff in H as ([y st] & E & H). cbn in E. subst y. pose proof (Hf _ H) as E. cbn in E. subst st. now apply D4. }
    destruct (D2 v) as [E|(c & z & H & E)].
    - right. split; auto. intros c z H. apply (D c z H). rewrite E. left. cbn. now apply (Hpos H).
    - left. exists c, z. split; auto. split; auto. intros c' z' H'. specialize (D c' z' H'). rewrite E in D. unfold beats in D. cbn in D. lia.
  Qed.
  Theorem best_ends sched : (forall t, t < length ts -> 2 * length ts + 3 <= count_occ Nat.eq_dec sched t) -> dfinished (dexec sched start).
  Proof.
    intros Hs th Hth. destruct (d_inv sched) as [D1 _ _ _ D5]. set (s := dexec sched start) in *. destruct (live th) eqn:El; [|destruct th as [y [| |]]; auto; discriminate].
    exfalso. apply In_nth_error in Hth as (t & Et). specialize (D5 t th Et El). pose proof (f_equal (@length _) D1) as Hl. rewrite map_length in Hl. assert (Ht : t < length (snd s)) by (apply nth_error_Some; congruence). assert (Ht' : t < length ts) by (rewrite <- Hl; exact Ht). specialize (Hs t Ht'). lia.
  Qed.
End AttachBest.
