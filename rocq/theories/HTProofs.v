From Coq Require Import Permutation.
From Verif Require Import Base ListUtil HTModel HTSpec.

Section Probe.
  Variable V : Type.
  Variable hash : nat -> nat.
  Variable e0 : V.
  Variable m : nat.
  Hypothesis Hm : 0 < m.
  Notation key t h := (tkey e0 t h).
  Definition at_ (k d : nat) : nat := (hash k + d) mod m.
  Definition taken (t : table V) (k h : nat) : Prop := exists k', key t h = Some k' /\ k' <> k.
  Definition path (t : table V) (k d : nat) : Prop := forall j, j < d -> taken t k (at_ k j).
  Definition wf (t : table V) : Prop := length t = m /\
    forall h k, h < m -> key t h = Some k -> exists d, d < m /\ h = at_ k d /\ path t k d.

  Lemma at_lt k d : at_ k d < m.
  Proof. unfold at_. apply Nat.mod_upper_bound. lia. Qed.
  Lemma at_0 (t : table V) k : length t = m -> firstIndex hash t k = at_ k 0.
  Proof. intros H. unfold firstIndex, at_. now rewrite H, Nat.add_0_r. Qed.
  Lemma at_S (t : table V) k d : length t = m -> incrementIndex t (at_ k d) = at_ k (S d).
  Proof.
    intros H. unfold incrementIndex, at_. rewrite H. rewrite Nat.add_mod_idemp_l by lia. f_equal. lia.
  Qed.
  Lemma at_inj k d1 d2 : d1 < m -> d2 < m -> at_ k d1 = at_ k d2 -> d1 = d2.
  Proof.
    unfold at_. intros H1 H2 E. rewrite <- (Nat.add_mod_idemp_l _ d1), <- (Nat.add_mod_idemp_l _ d2) in E by lia.
    set (a := hash k mod m) in *. assert (a < m) by (apply Nat.mod_upper_bound; lia).
    assert (R : forall d, d < m -> (a + d) mod m = if a + d <? m then a + d else a + d - m).
    { intros d Hd. destruct (Nat.ltb_spec (a + d) m); [now apply Nat.mod_small|].
      symmetry. apply Nat.mod_unique with (q := 1); lia. }
    rewrite !R in E by auto. destruct (Nat.ltb_spec (a + d1) m), (Nat.ltb_spec (a + d2) m); lia.
  Qed.
  Lemma at_surj k h : h < m -> exists d, d < m /\ h = at_ k d.
  Proof.
    intros Hh. set (a := hash k mod m). assert (a < m) by (apply Nat.mod_upper_bound; lia).
    exists ((h + m - a) mod m). split; [apply Nat.mod_upper_bound; lia|]. unfold at_.
    rewrite <- Nat.add_mod_idemp_l by lia. fold a. rewrite Nat.add_mod_idemp_r by lia.
    replace (a + (h + m - a)) with (h + 1 * m) by lia. rewrite Nat.mod_add by lia. symmetry. now apply Nat.mod_small.
  Qed.

  (* a key is stored at most once *)
  Lemma wf_unique t h1 h2 k : wf t -> h1 < m -> h2 < m -> key t h1 = Some k -> key t h2 = Some k -> h1 = h2.
  Proof.
    intros [_ H] L1 L2 E1 E2. destruct (H h1 k L1 E1) as (d1 & D1 & -> & P1). destruct (H h2 k L2 E2) as (d2 & D2 & -> & P2).
    destruct (Nat.lt_trichotomy d1 d2) as [Hd|[->|Hd]]; auto.
    - destruct (P2 d1 Hd) as (k' & E & N). congruence.
    - destruct (P1 d2 Hd) as (k' & E & N). congruence.
  Qed.
  (* if the search for k reaches an empty cell, k is not stored *)
  Lemma path_empty t k d : wf t -> path t k d -> d < m -> key t (at_ k d) = None -> forall h, h < m -> key t h <> Some k.
  Proof.
    intros [_ H] P Hd En h Hh E. destruct (H h k Hh E) as (d' & D' & -> & P').
    destruct (Nat.lt_trichotomy d d') as [Hlt|[<-|Hlt]].
    - destruct (P' d Hlt) as (k' & E' & _). congruence.
    - congruence.
    - destruct (P d' Hlt) as (k' & E' & N). congruence.
  Qed.

  (* the entries as (key, value) of the cells *)
  Lemma entries_app (a b : table V) : entries (a ++ b) = entries a ++ entries b.
  Proof. unfold entries. apply flat_map_app. Qed.
  Lemma entries_In t k v : In (k, v) (entries t) <-> exists h, h < length t /\ key t h = Some k /\ tval e0 t h = v.
  Proof.
    unfold entries, tkey, tval. rewrite in_flat_map. split.
    - intros ([o w] & Hin & H). simpl in H. destruct o as [k'|]; [|destruct H]. destruct H as [H|[]]. injection H as -> ->.
      destruct (In_nth _ _ (None, e0) Hin) as (h & Hh & E). exists h. rewrite E. auto.
    - intros (h & Hh & E1 & E2). exists (nth h t (None, e0)). split; [now apply nth_In|]. rewrite E1. left. now rewrite E2.
  Qed.
  Lemma keys_In t k : In k (keys_of t) <-> exists h, h < length t /\ key t h = Some k.
  Proof.
    unfold keys_of. rewrite in_map_iff. split.
    - intros ([k' v] & <- & H). apply entries_In in H as (h & Hh & E & _). eauto.
    - intros (h & Hh & E). exists (k, tval e0 t h). split; auto. apply entries_In. eauto.
  Qed.
  Lemma tkey_nth t h : tkey e0 t h = fst (nth h t (None, e0)).
  Proof. reflexivity. Qed.
  Lemma keys_NoDup t : (forall h1 h2 k, h1 < length t -> h2 < length t -> key t h1 = Some k -> key t h2 = Some k -> h1 = h2) -> NoDup (keys_of t).
  Proof.
    unfold keys_of. induction t as [|[o v] t IH]; intros H; [constructor|].
    assert (IH' : NoDup (map fst (entries t))).
    { apply IH. intros h1 h2 k L1 L2 E1 E2. specialize (H (S h1) (S h2) k). simpl in H. specialize (H ltac:(lia) ltac:(lia) E1 E2). lia. }
    destruct o as [k|]; simpl; auto. constructor; auto. intros Hin.
    change (In k (keys_of t)) in Hin. apply keys_In in Hin as (h & Hh & E). specialize (H 0 (S h) k). simpl in H. 
    specialize (H ltac:(lia) ltac:(lia) eq_refl E). lia.
  Qed.
  Lemma wf_keys_NoDup t : wf t -> NoDup (keys_of t).
  Proof. intros H. apply keys_NoDup. intros h1 h2 k. destruct H as [L W]. rewrite L. intros. eapply wf_unique; eauto. now split. Qed.
  Lemma full_length t : (forall h, h < length t -> key t h <> None) -> length (keys_of t) = length t.
  Proof.
    unfold keys_of. rewrite map_length. induction t as [|[o v] t IH]; intros H; auto.
    destruct o as [k|]; [|exfalso; apply (H 0); simpl; auto; lia]. simpl. f_equal. apply IH. intros h Hh. apply (H (S h)). simpl. lia.
  Qed.
  Lemma distinct_ge l l' : NoDup l -> incl l l' -> length l <= distinct l'.
  Proof. intros H1 H2. unfold distinct. apply NoDup_incl_length; auto. intros x Hx. apply nodup_In. auto. Qed.

  (* with room, a search does not run around the whole table *)
  Lemma path_short t k d l : wf t -> path t k d -> incl (k :: keys_of t) l -> distinct l <= m -> d < m.
  Proof.
    intros Hwf P Hin Hd. destruct (Nat.lt_ge_cases d m) as [|Hge]; auto. exfalso.
    assert (Hall : forall h, h < m -> taken t k h).
    { intros h Hh. destruct (at_surj k Hh) as (j & Hj & ->). apply P. lia. }
    assert (Hl : length t = m) by apply Hwf.
    assert (Hk : ~ In k (keys_of t)).
    { intros H. apply keys_In in H as (h & Hh & E). destruct (Hall h ltac:(lia)) as (k' & E' & N). congruence. }
    assert (Hfull : length (keys_of t) = m).
    { rewrite full_length; auto. intros h Hh E. destruct (Hall h ltac:(lia)) as (k' & E' & _). congruence. }
    pose proof (@distinct_ge (k :: keys_of t) l) as H. simpl length in H.
    specialize (H ltac:(constructor; auto; now apply wf_keys_NoDup) Hin). lia.
  Qed.

  Lemma new_wf : wf (new_table e0 m).
  Proof.
    unfold new_table. split; [apply repeat_length|]. intros h k Hh E. unfold tkey in E. rewrite nth_repeat in E. discriminate.
  Qed.

  (* updates *)
  Lemma key_set_key t h k j : h < length t -> key (set_key e0 t h k) j = if j =? h then Some k else key t j.
  Proof.
    intros Hh. unfold tkey, set_key. rewrite nth_lset, (Nat.eqb_sym h j). destruct (Nat.eqb_spec j h) as [->|]; simpl; auto.
    apply Nat.ltb_lt in Hh. now rewrite Hh.
  Qed.
  Lemma val_set_key t h k j : tval e0 (set_key e0 t h k) j = tval e0 t j.
  Proof.
    unfold tval, set_key. rewrite nth_lset, (Nat.eqb_sym h j). destruct (Nat.eqb_spec j h) as [->|]; simpl; auto. destruct (h <? length t); auto.
  Qed.
  Lemma key_set_val t h v j : key (set_val e0 t h v) j = key t j.
  Proof.
    unfold tkey, set_val. rewrite nth_lset, (Nat.eqb_sym h j). destruct (Nat.eqb_spec j h) as [->|]; simpl; auto. destruct (h <? length t); auto.
  Qed.
  Lemma val_set_val t h v j : h < length t -> tval e0 (set_val e0 t h v) j = if j =? h then v else tval e0 t j.
  Proof.
    intros Hh. unfold tval, set_val. rewrite nth_lset, (Nat.eqb_sym h j). destruct (Nat.eqb_spec j h) as [->|]; simpl; auto.
    apply Nat.ltb_lt in Hh. now rewrite Hh.
  Qed.
  Lemma wf_ext t t' : length t' = length t -> (forall j, key t' j = key t j) -> wf t -> wf t'.
  Proof.
    intros L E [H1 H2]. split; [lia|]. intros h k Hh Hk. rewrite E in Hk. destruct (H2 h k Hh Hk) as (d & D & -> & P).
    exists d. split; auto. split; auto. intros j Hj. destruct (P j Hj) as (k' & E' & N). exists k'. now rewrite E.
  Qed.
  Lemma path_ext t t' k d : (forall j x, key t j = Some x -> key t' j = Some x) -> path t k d -> path t' k d.
  Proof. intros E P j Hj. destruct (P j Hj) as (k' & E' & N). exists k'. auto. Qed.
  Lemma wf_put t h k d : wf t -> d < m -> h = at_ k d -> path t k d -> key t h = None -> wf (set_key e0 t h k).
  Proof.
    intros [L H] Hd -> P En. pose proof (at_lt k d) as Hlt.
    assert (Hmono : forall j x, key t j = Some x -> key (set_key e0 t (at_ k d) k) j = Some x).
    { intros j x E. rewrite key_set_key by lia. destruct (Nat.eqb_spec j (at_ k d)); [congruence|auto]. }
    split; [unfold set_key; rewrite length_lset; auto|]. intros h' k' Hh' E. rewrite key_set_key in E by lia.
    destruct (Nat.eqb_spec h' (at_ k d)) as [->|N].
    - injection E as <-. exists d. split; auto. split; auto. eapply path_ext; eauto.
    - destruct (H h' k' Hh' E) as (d' & D' & -> & P'). exists d'. split; auto. split; auto. eapply path_ext; eauto.
  Qed.
End Probe.

Section Phase.
  Variable V : Type.
  Variable hash : nat -> nat.
  Variable e0 : V.
  Variable on_new : V -> V -> V.
  Variable on_old : option (V -> V -> V).
  Variable m : nat.
  Hypothesis Hm : 0 < m.
  Variable t0 : table V.
  Hypothesis Hwf0 : wf hash e0 m t0.
  Variable calls : list (nat * V).
  Hypothesis Hroom : distinct (keys_of t0 ++ map fst calls) <= m.
  Notation key t h := (tkey e0 t h).
  Notation val t h := (tval e0 t h).
  Notation at_ := (at_ hash m).
  Notation path := (path hash e0 m).
  Definition ckey (i : nat) : nat := nth i (map fst calls) 0.
  Definition updates (e : nat * bool) (x : V) : V :=
    match nth_error calls (fst e) with
    | None => x
    | Some kv => if snd e then on_new x (snd kv) else match on_old with None => x | Some f => f x (snd kv) end
    end.
  Definition owner (p : pc) : Prop := (exists h, p = Upd h true) \/ p = Done true.

  Definition thread_ok (t : table V) (k : nat) (p : pc) : Prop :=
    match p with
    | Test h | Cas h => exists d, d < m /\ h = at_ k d /\ path t k d
    | Check h => exists d, d < m /\ h = at_ k d /\ path t k d /\ key t h <> None
    | Upd h fresh => h < m /\ key t h = Some k /\ (fresh = false -> on_old <> None)
    | Done _ => exists h, h < m /\ key t h = Some k
    end.
  Definition applied (p : pc) (fresh : bool) : Prop := p = Done fresh /\ (fresh = false -> on_old <> None).

  Definition key_of (e : nat * bool) : nat := ckey (fst e).
  Record Inv (s : st V) : Prop := {
    I_wf : wf hash e0 m (tab s);
    I_len : length (pcs s) = length calls;
    I_thr : forall i kv p, nth_error calls i = Some kv -> nth_error (pcs s) i = Some p -> thread_ok (tab s) (fst kv) p;
    I_old : forall h k, key t0 h = Some k -> key (tab s) h = Some k;
    I_new : forall h k, h < m -> key (tab s) h = Some k -> key t0 h = Some k \/
              exists i kv p, nth_error calls i = Some kv /\ nth_error (pcs s) i = Some p /\ fst kv = k /\ owner p;
    I_own : forall i kv p, nth_error calls i = Some kv -> nth_error (pcs s) i = Some p -> owner p -> ~ In (fst kv) (keys_of t0);
    I_uni : forall i j kv kv' p p', nth_error calls i = Some kv -> nth_error calls j = Some kv' ->
              nth_error (pcs s) i = Some p -> nth_error (pcs s) j = Some p' -> owner p -> owner p' -> fst kv = fst kv' -> i = j;
    I_log : forall i fresh, In (i, fresh) (hlog s) <-> exists p, nth_error (pcs s) i = Some p /\ applied p fresh;
    I_nd : NoDup (hlog s);
    I_val : forall h, h < m -> val (tab s) h =
              match key (tab s) h with
              | None => val t0 h
              | Some k => fold_left (fun x e => updates e x) (filter (fun e => key_of e =? k) (hlog s)) (val t0 h)
              end
  }.

  Lemma Inv_start : Inv (start hash t0 calls).
  Proof.
    assert (Hl : length t0 = m) by apply Hwf0.
    assert (Hp : forall i p, nth_error (map (fun kv : nat * V => Test (firstIndex hash t0 (fst kv))) calls) i = Some p -> exists h, p = Test h).
    { intros i p H. apply nth_error_In, in_map_iff in H as (kv & <- & _). eauto. }
    constructor; simpl; auto.
    - now rewrite map_length.
    - intros i kv p E1 E2. rewrite nth_error_map, E1 in E2. injection E2 as <-. simpl. exists 0.
      split; auto. split; [now apply at_0|]. intros j Hj. lia.
    - intros i kv p E1 E2 [(h & ->)| ->]; destruct (Hp _ _ E2); discriminate.
    - intros i j kv kv' p p' _ _ E1 _ [(h & ->)| ->]; destruct (Hp _ _ E1); discriminate.
    - intros i fresh. split; [intros []|]. intros (p & E & -> & _). destruct (Hp _ _ E). discriminate.
    - constructor.
    - intros h Hh. destruct (key t0 h); reflexivity.
  Qed.

  Lemma incl_room s i kv p : Inv s -> nth_error calls i = Some kv -> nth_error (pcs s) i = Some p ->
    incl (fst kv :: keys_of (tab s)) (keys_of t0 ++ map fst calls).
  Proof.
    intros HI E1 E2 k [<-|Hk]; apply in_or_app; [right; apply in_map; now apply nth_error_In in E1|].
    apply (keys_In e0) in Hk as (h & Hh & E). assert (Hl : length (tab s) = m) by apply (I_wf HI). rewrite Hl in Hh.
    destruct (I_new HI Hh E) as [H|(j & kv' & p' & J1 & _ & J3 & _)].
    - left. apply (keys_In e0). exists h. destruct Hwf0 as [-> _]. auto.
    - right. rewrite <- J3. apply in_map. now apply nth_error_In in J1.
  Qed.

  (* a step that changes neither the table nor the log *)
  Lemma Inv_local s i kv p p' : Inv s -> nth_error calls i = Some kv -> nth_error (pcs s) i = Some p ->
    ~ owner p -> ~ owner p' -> (forall b, ~ applied p b) -> (forall b, ~ applied p' b) ->
    thread_ok (tab s) (fst kv) p' ->
    Inv {| tab := tab s; pcs := lset (pcs s) i p'; hlog := hlog s |}.
  Proof.
    intros HI E1 E2 No No' Na Na' Hok.
    assert (Hlt : i < length (pcs s)) by (apply nth_error_Some; congruence).
    assert (Hsame : nth_error (lset (pcs s) i p') i = Some p') by now apply nth_error_lset_same.
    assert (Hoth : forall j, j <> i -> nth_error (lset (pcs s) i p') j = nth_error (pcs s) j).
    { intros j Hj. apply nth_error_lset_other. auto. }
    constructor; simpl; try apply HI.
    - rewrite length_lset. apply HI.
    - intros j kv' q F1 F2. destruct (Nat.eq_dec j i) as [->|Nj].
      + rewrite Hsame in F2. injection F2 as <-. rewrite E1 in F1. injection F1 as <-. auto.
      + rewrite Hoth in F2 by auto. eapply (I_thr HI); eauto.
    - intros h k Hh Hk. destruct (I_new HI Hh Hk) as [H|(j & kv' & q & J1 & J2 & J3 & J4)]; auto. right.
      exists j, kv', q. split; auto. split; auto. destruct (Nat.eq_dec j i) as [->|Nj]; [rewrite E2 in J2; injection J2 as <-; tauto|]. now rewrite Hoth.
    - intros j kv' q F1 F2 Ho. destruct (Nat.eq_dec j i) as [->|Nj].
      + rewrite Hsame in F2. injection F2 as <-. tauto.
      + rewrite Hoth in F2 by auto. eapply (I_own HI); eauto.
    - intros a b ka kb pa pb F1 F2 F3 F4 O1 O2 Ek.
      destruct (Nat.eq_dec a i) as [->|Na1]; [rewrite Hsame in F3; injection F3 as <-; tauto|].
      destruct (Nat.eq_dec b i) as [->|Nb1]; [rewrite Hsame in F4; injection F4 as <-; tauto|].
      rewrite Hoth in F3, F4 by auto. eapply (I_uni HI); eauto.
    - intros j fresh. rewrite (I_log HI). destruct (Nat.eq_dec j i) as [->|Nj].
      + split; intros (q & F1 & F2).
        * rewrite E2 in F1. injection F1 as <-. now apply Na in F2.
        * rewrite Hsame in F1. injection F1 as <-. now apply Na' in F2.
      + rewrite Hoth by auto. tauto.
  Qed.

  Lemma thread_ok_mono t t' k p : (forall h x, key t h = Some x -> key t' h = Some x) -> thread_ok t k p -> thread_ok t' k p.
  Proof.
    intros Hmono. destruct p as [h|h|h|h fresh|r]; simpl.
    - intros (d & D & E & P). exists d. split; auto. split; auto. eapply path_ext; eauto.
    - intros (d & D & E & P). exists d. split; auto. split; auto. eapply path_ext; eauto.
    - intros (d & D & E & P & N). exists d. split; auto. split; auto. split; [eapply path_ext; eauto|].
      destruct (key t h) as [x|] eqn:Ex; [|congruence]. rewrite (Hmono _ _ Ex). congruence.
    - intros (H1 & H2 & H3). auto.
    - intros (h & H1 & H2). eauto.
  Qed.

  Lemma key_call i kv : nth_error calls i = Some kv -> ckey i = fst kv.
  Proof. intros E. unfold ckey. apply nth_error_nth. now rewrite nth_error_map, E. Qed.

  Lemma Inv_step s i : Inv s -> Inv (sys_step e0 on_new on_old calls s i).
  Proof.
    intros HI. unfold sys_step. destruct (nth_error calls i) as [kv|] eqn:E1; auto.
    destruct (nth_error (pcs s) i) as [p|] eqn:E2; auto.
    assert (Hl : length (tab s) = m) by apply (I_wf HI).
    pose proof (I_thr HI _ E1 E2) as Hok.
    assert (Hlt : i < length (pcs s)) by (apply nth_error_Some; congruence).
    assert (Na_t : forall h b, ~ applied (Test h) b) by (intros h b [H _]; discriminate).
    assert (Na_c : forall h b, ~ applied (Cas h) b) by (intros h b [H _]; discriminate).
    assert (Na_k : forall h b, ~ applied (Check h) b) by (intros h b [H _]; discriminate).
    assert (Na_u : forall h f b, ~ applied (Upd h f) b) by (intros h f b [H _]; discriminate).
    assert (No_t : forall h, ~ owner (Test h)) by (intros h [(x & H)|H]; discriminate).
    assert (No_c : forall h, ~ owner (Cas h)) by (intros h [(x & H)|H]; discriminate).
    assert (No_k : forall h, ~ owner (Check h)) by (intros h [(x & H)|H]; discriminate).
    destruct p as [h|h|h|h fresh|r]; simpl in *.
    - (* Test *)
      destruct Hok as (d & D & E & P). destruct (key (tab s) h) as [x|] eqn:Ek.
      + apply Inv_local with (kv := kv) (p := Test h); auto. simpl. exists d. rewrite Ek. repeat split; auto. congruence.
      + apply Inv_local with (kv := kv) (p := Test h); auto. simpl. exists d. auto.
    - (* Cas *)
      destruct Hok as (d & D & E & P). destruct (key (tab s) h) as [x|] eqn:Ek.
      + apply Inv_local with (kv := kv) (p := Cas h); auto. simpl. exists d. rewrite Ek. repeat split; auto. congruence.
      + set (k := fst kv) in *.
        assert (Hh : h < m) by (subst h; now apply at_lt).
        assert (Habs : forall h', h' < m -> key (tab s) h' <> Some k).
        { subst h. eapply path_empty; eauto. apply HI. }
        assert (Hmono : forall h' x, key (tab s) h' = Some x -> key (set_key e0 (tab s) h k) h' = Some x).
        { intros h' x Ex. rewrite key_set_key by lia. destruct (Nat.eqb_spec h' h); [congruence|auto]. }
        assert (Hsame : nth_error (lset (pcs s) i (Upd h true)) i = Some (Upd h true)) by now apply nth_error_lset_same.
        assert (Hoth : forall j, j <> i -> nth_error (lset (pcs s) i (Upd h true)) j = nth_error (pcs s) j).
        { intros j Hj. apply nth_error_lset_other. auto. }
        assert (Hno : forall j kv' q, nth_error calls j = Some kv' -> nth_error (pcs s) j = Some q -> owner q -> fst kv' <> k).
        { intros j kv' q F1 F2 Ho Eq. pose proof (I_thr HI _ F1 F2) as Hq. destruct Ho as [(x & ->)| ->]; simpl in Hq.
          - destruct Hq as (Hx & Hk & _). rewrite Eq in Hk. now apply (Habs x).
          - destruct Hq as (x & Hx & Hk). rewrite Eq in Hk. now apply (Habs x). }
        constructor; simpl.
        * eapply wf_put with (d := d); eauto. apply HI.
        * rewrite length_lset. apply HI.
        * intros j kv' q F1 F2. destruct (Nat.eq_dec j i) as [->|Nj].
          -- rewrite Hsame in F2. injection F2 as <-. rewrite E1 in F1. injection F1 as <-. simpl. split; auto. split; [|discriminate].
             rewrite key_set_key by lia. now rewrite Nat.eqb_refl.
          -- rewrite Hoth in F2 by auto. eapply thread_ok_mono; [exact Hmono|]. eapply (I_thr HI); eauto.
        * intros h' x Hx. apply Hmono. now apply (I_old HI).
        * intros h' x Hh' Hx. rewrite key_set_key in Hx by lia. destruct (Nat.eqb_spec h' h) as [->|Nh].
          -- injection Hx as <-. right. exists i, kv, (Upd h true). repeat split; auto. left; eauto.
          -- destruct (I_new HI Hh' Hx) as [H|(j & kv' & q & J1 & J2 & J3 & J4)]; auto. right. exists j, kv', q. split; auto. split; auto.
             destruct (Nat.eq_dec j i) as [->|Nj]; [rewrite E2 in J2; injection J2 as <-; destruct (No_c _ J4)|]. now rewrite Hoth.
        * intros j kv' q F1 F2 Ho. destruct (Nat.eq_dec j i) as [->|Nj].
          -- rewrite E1 in F1. injection F1 as <-. intros Hin. apply (keys_In e0) in Hin as (h' & Hh' & Ex). destruct Hwf0 as [L0 _]. rewrite L0 in Hh'.
             apply (I_old HI) in Ex. now apply (Habs h').
          -- rewrite Hoth in F2 by auto. eapply (I_own HI); eauto.
        * intros a b ka kb pa pb F1 F2 F3 F4 O1 O2 Eq.
          destruct (Nat.eq_dec a i) as [->|Na1], (Nat.eq_dec b i) as [->|Nb1]; auto.
          -- rewrite E1 in F1. injection F1 as <-. rewrite Hoth in F4 by auto. exfalso. eapply Hno; eauto.
          -- rewrite E1 in F2. injection F2 as <-. rewrite Hoth in F3 by auto. exfalso. eapply Hno; eauto.
          -- rewrite Hoth in F3, F4 by auto. eapply (I_uni HI); eauto.
        * intros j fresh. rewrite (I_log HI). destruct (Nat.eq_dec j i) as [->|Nj].
          -- split; intros (q & F1 & F2).
             ++ rewrite E2 in F1. injection F1 as <-. now apply Na_c in F2.
             ++ rewrite Hsame in F1. injection F1 as <-. now apply Na_u in F2.
          -- rewrite Hoth by auto. tauto.
        * apply HI.
        * intros h' Hh'. rewrite val_set_key, key_set_key by lia. pose proof (I_val HI Hh') as Hv. destruct (Nat.eqb_spec h' h) as [->|Nh]; auto.
          rewrite Ek in Hv. rewrite Hv, filter_none; auto. intros [j b] Hj. unfold key_of. simpl.
          apply (I_log HI) in Hj as (q & F1 & F2). apply Nat.eqb_neq. intros Eq.
          assert (Hj : j < length calls) by (rewrite <- (I_len HI); apply nth_error_Some; congruence).
          destruct (nth_error calls j) as [kv'|] eqn:F3; [|apply nth_error_None in F3; lia]. rewrite (key_call _ F3) in Eq.
          destruct F2 as [-> _]. pose proof (I_thr HI _ F3 F1) as (x & Hx & Hk). rewrite Eq in Hk. now apply (Habs x).
    - (* Check *)
      destruct Hok as (d & D & E & P & N). destruct (key (tab s) h) as [x|] eqn:Ek; [|congruence].
      destruct (Nat.eqb_spec x (fst kv)) as [->|Nx].
      + assert (Hh : h < m) by (subst h; now apply at_lt). destruct on_old as [f|] eqn:Eo.
        * apply Inv_local with (kv := kv) (p := Check h); auto; simpl.
          -- intros [(y & H)|H]; discriminate.
          -- repeat split; auto. congruence.
        * apply Inv_local with (kv := kv) (p := Check h); auto; simpl.
          -- intros [(y & H)|H]; discriminate.
          -- intros b [H1 H2]. injection H1 as <-. now apply H2.
          -- eauto.
      + apply Inv_local with (kv := kv) (p := Check h); auto. simpl. exists (S d).
        assert (P' : path (tab s) (fst kv) (S d)).
        { intros j Hj. destruct (Nat.eq_dec j d) as [->|Nj]; [|apply P; lia]. exists x. rewrite <- E. auto. }
        split; [|split; auto].
        * eapply path_short; [exact Hm|apply HI|exact P'|eapply incl_room; eauto|auto].
        * rewrite E. now apply at_S.
    - (* Upd *)
      destruct Hok as (Hh & Hk & Hf). set (v' := if fresh then _ else _).
      assert (Hkeys : forall j, key (set_val e0 (tab s) h v') j = key (tab s) j) by (intros j; apply key_set_val).
      assert (Hsame : nth_error (lset (pcs s) i (Done fresh)) i = Some (Done fresh)) by now apply nth_error_lset_same.
      assert (Hoth : forall j, j <> i -> nth_error (lset (pcs s) i (Done fresh)) j = nth_error (pcs s) j).
      { intros j Hj. apply nth_error_lset_other. auto. }
      assert (Hown : owner (Done fresh) -> owner (Upd h fresh)).
      { intros [(y & H)|H]; [discriminate|]. injection H as ->. left. eauto. }
      assert (Hown' : owner (Upd h fresh) -> owner (Done fresh)).
      { intros [(y & H)|H]; [|discriminate]. injection H as _ ->. now right. }
      constructor; simpl.
      + eapply wf_ext; [exact Hm| | |apply HI]; auto. unfold set_val. apply length_lset.
      + rewrite length_lset. apply HI.
      + intros j kv' q F1 F2. destruct (Nat.eq_dec j i) as [->|Nj].
        * rewrite Hsame in F2. injection F2 as <-. rewrite E1 in F1. injection F1 as <-. simpl. exists h. now rewrite Hkeys.
        * rewrite Hoth in F2 by auto. eapply thread_ok_mono; [|eapply (I_thr HI); eauto]. intros. now rewrite Hkeys.
      + intros h' x Hx. rewrite Hkeys. now apply (I_old HI).
      + intros h' x Hh' Hx. rewrite Hkeys in Hx. destruct (I_new HI Hh' Hx) as [H|(j & kv' & q & J1 & J2 & J3 & J4)]; auto. right.
        destruct (Nat.eq_dec j i) as [->|Nj].
        * exists i, kv', (Done fresh). rewrite E2 in J2. injection J2 as <-. auto.
        * exists j, kv', q. rewrite Hoth by auto. auto.
      + intros j kv' q F1 F2 Ho. destruct (Nat.eq_dec j i) as [->|Nj].
        * rewrite Hsame in F2. injection F2 as <-. eapply (I_own HI); eauto.
        * rewrite Hoth in F2 by auto. eapply (I_own HI); eauto.
      + intros a b ka kb pa pb F1 F2 F3 F4 O1 O2 Eq.
        assert (Hback : forall j q, nth_error (lset (pcs s) i (Done fresh)) j = Some q -> owner q -> exists q', nth_error (pcs s) j = Some q' /\ owner q').
        { intros j q G1 G2. destruct (Nat.eq_dec j i) as [->|Nj]; [rewrite Hsame in G1; injection G1 as <-; eauto|rewrite Hoth in G1 by auto; eauto]. }
        destruct (Hback _ _ F3 O1) as (qa & Ga & Oa). destruct (Hback _ _ F4 O2) as (qb & Gb & Ob). eapply (I_uni HI); eauto.
      + intros j fr. rewrite in_app_iff, (I_log HI). destruct (Nat.eq_dec j i) as [->|Nj].
        * rewrite Hsame, E2. split.
          -- intros [(q & F1 & F2)|[F|[]]]; [injection F1 as <-; now apply Na_u in F2|]. injection F as <-. exists (Done fresh). repeat split; auto.
          -- intros (q & F1 & F2 & F3). injection F1 as <-. injection F2 as <-. right. now left.
        * rewrite Hoth by auto. split.
          -- intros [H|[F|[]]]; auto. injection F as F _. congruence.
          -- intros H. now left.
      + apply NoDup_app_iff. split; [apply HI|]. split; [repeat constructor; intros []|].
        intros [j b] F1 [F2|[]]. injection F2 as <- <-. apply (I_log HI) in F1 as (q & F1 & F2). rewrite E2 in F1. injection F1 as <-. now apply Na_u in F2.
      + intros h' Hh'. rewrite Hkeys, val_set_val by lia. pose proof (I_val HI Hh') as Hv.
        assert (Hf' : forall x, filter (fun e => key_of e =? x) (hlog s ++ [(i, fresh)]) =
                      filter (fun e => key_of e =? x) (hlog s) ++ (if fst kv =? x then [(i, fresh)] else [])).
        { intros x. rewrite filter_app. simpl. unfold key_of at 2. simpl. now rewrite (key_call _ E1). }
        destruct (Nat.eqb_spec h' h) as [->|Nh].
        * rewrite Hk in *. rewrite Hf', Nat.eqb_refl, fold_left_app, <- Hv. cbn [fold_left]. unfold updates. cbn [fst snd]. rewrite E1. reflexivity.
        * rewrite Hv. destruct (key (tab s) h') as [x|] eqn:Ex; auto. rewrite Hf'. destruct (Nat.eqb_spec (fst kv) x) as [<-|Nx]; [|now rewrite app_nil_r].
          exfalso. apply Nh. exact (wf_unique (I_wf HI) Hh' Hh Ex Hk).
    - (* Done *)
      assert (E : lset (pcs s) i (Done r) = pcs s).
      { apply list_ext_nth_error. intros j. destruct (Nat.eq_dec j i) as [->|Nj]; [now rewrite nth_error_lset_same|]. apply nth_error_lset_other. auto. }
      rewrite E. destruct s; exact HI.
  Qed.
  Lemma Inv_exec sched s : Inv s -> Inv (exec e0 on_new on_old calls sched s).
  Proof. unfold exec. revert s; induction sched as [|i sched IH]; intros s HI; simpl; auto. apply IH, Inv_step, HI. Qed.

  (* -- termination ------------------------------------------------------------------ *)
  Definition dist (k h : nat) : nat := (h + m - hash k mod m) mod m.
  Lemma dist_at k d : d < m -> dist k (at_ k d) = d.
  Proof.
    intros Hd. unfold dist, HTProofs.at_. rewrite <- (Nat.add_mod_idemp_l _ d) by lia.
    set (a := hash k mod m). assert (a < m) by (apply Nat.mod_upper_bound; lia).
    destruct (Nat.lt_ge_cases (a + d) m).
    - rewrite (Nat.mod_small (a + d)) by lia. replace (a + d + m - a) with (d + 1 * m) by lia. rewrite Nat.mod_add by lia. now apply Nat.mod_small.
    - rewrite <- (@Nat.mod_unique (a + d) m 1 (a + d - m)) by lia. replace (a + d - m + m - a) with d by lia. now apply Nat.mod_small.
  Qed.
  Definition cost (k : nat) (p : pc) : nat :=
    match p with
    | Test h => 3 * (m - dist k h) + 2
    | Cas h => 3 * (m - dist k h) + 1
    | Check h => 3 * (m - dist k h)
    | Upd _ _ => 1
    | Done _ => 0
    end.
  Lemma cost_step s i kv p : Inv s -> nth_error calls i = Some kv -> nth_error (pcs s) i = Some p ->
    exists p', nth_error (pcs (sys_step e0 on_new on_old calls s i)) i = Some p' /\
      (cost (fst kv) p' < cost (fst kv) p \/ (cost (fst kv) p = 0 /\ p' = p)).
  Proof.
    intros HI E1 E2. pose proof (Inv_step i HI) as HI'. revert HI'. unfold sys_step. rewrite E1, E2.
    pose proof (I_thr HI _ E1 E2) as Hok. assert (Hlt : i < length (pcs s)) by (apply nth_error_Some; congruence).
    assert (Hl : length (tab s) = m) by apply (I_wf HI).
    destruct p as [h|h|h|h fresh|r]; simpl in *; intros HI'.
    - destruct (key (tab s) h); (eexists; split; [apply nth_error_lset_same; auto|left; simpl; lia]).
    - destruct (key (tab s) h); simpl; (eexists; split; [apply nth_error_lset_same; auto|left; simpl]); [lia|].
      destruct Hok as (d & D & -> & _). rewrite dist_at; lia.
    - destruct Hok as (d & D & E & P & N). destruct (key (tab s) h) as [x|] eqn:Ek; [|congruence].
      destruct (Nat.eqb_spec x (fst kv)) as [->|Nx].
      + simpl. eexists. split; [apply nth_error_lset_same; auto|]. left. rewrite E, dist_at by auto. destruct on_old; simpl; lia.
      + simpl in *. eexists. split; [apply nth_error_lset_same; auto|]. left. simpl.
        assert (P' : path (tab s) (fst kv) (S d)).
        { intros j Hj. destruct (Nat.eq_dec j d) as [->|Nj]; [|apply P; lia]. exists x. rewrite <- E. auto. }
        pose proof (path_short Hm (I_wf HI) P' (@incl_room s i kv _ HI E1 E2) Hroom).
        rewrite E, (at_S hash Hm) by auto. rewrite !dist_at by auto. lia.
    - eexists. split; [apply nth_error_lset_same; auto|]. left. simpl. lia.
    - eexists. split; [apply nth_error_lset_same; auto|]. right. auto.
  Qed.
  Lemma other_step s i j : i <> j -> nth_error (pcs (sys_step e0 on_new on_old calls s j)) i = nth_error (pcs s) i.
  Proof.
    intros N. unfold sys_step. destruct (nth_error calls j) as [kv|]; auto. destruct (nth_error (pcs s) j) as [p|]; auto.
    destruct (tstep e0 on_new on_old j kv (tab s) p (hlog s)) as [[t p'] l]. simpl. apply nth_error_lset_other. auto.
  Qed.
  Lemma cost_exec sched : forall s i kv p, Inv s -> nth_error calls i = Some kv -> nth_error (pcs s) i = Some p ->
    exists p', nth_error (pcs (exec e0 on_new on_old calls sched s)) i = Some p' /\ cost (fst kv) p' <= cost (fst kv) p - steps sched i.
  Proof.
    induction sched as [|j sched IH]; intros s i kv p HI E1 E2; simpl.
    - exists p. split; auto. lia.
    - unfold steps. simpl. destruct (Nat.eq_dec j i) as [->|N].
      + destruct (cost_step _ HI E1 E2) as (p1 & F1 & F2). destruct (IH _ _ _ _ (Inv_step i HI) E1 F1) as (p' & G1 & G2).
        exists p'. split; auto. unfold steps in G2. destruct F2 as [F2|[F2 ->]]; lia.
      + destruct (IH (sys_step e0 on_new on_old calls s j) i kv p (Inv_step j HI) E1) as (p' & G1 & G2).
        { rewrite other_step; auto. }
        exists p'. split; auto.
  Qed.
  Lemma cost_0 k p : cost k p = 0 -> exists r, p = Done r.
  Proof.
    destruct p; simpl; try lia; eauto. intros H. exfalso. unfold dist in H.
    pose proof (Nat.mod_upper_bound (h + m - hash k mod m) m). lia.
  Qed.
  Lemma wait_free sched i : i < length calls -> 3 * m + 2 <= steps sched i ->
    exists r, returned (exec e0 on_new on_old calls sched (start hash t0 calls)) i r.
  Proof.
    intros Hi Hs. destruct (nth_error calls i) as [kv|] eqn:E1; [|apply nth_error_None in E1; lia].
    assert (E2 : nth_error (pcs (start hash t0 calls)) i = Some (Test (firstIndex hash t0 (fst kv)))).
    { simpl. now rewrite nth_error_map, E1. }
    destruct (cost_exec sched _ Inv_start E1 E2) as (p' & F1 & F2). simpl in F2.
    destruct (@cost_0 (fst kv) p') as (r & ->); [lia|]. now exists r.
  Qed.

  (* -- what a finished phase leaves --------------------------------------------------- *)
  Section Fin.
    Variable s : st V.
    Hypothesis HI : Inv s.
    Hypothesis Hfin : finished s.
    Lemma fin_keys k : In k (keys_of (tab s)) <-> In k (keys_of t0) \/ In k (map fst calls).
    Proof.
      assert (Hl : length (tab s) = m) by apply (I_wf HI). assert (Hl0 : length t0 = m) by apply Hwf0.
      rewrite !(keys_In e0). rewrite Hl, Hl0. split.
      - intros (h & Hh & E). destruct (I_new HI Hh E) as [H|(j & kv & p & J1 & _ & J3 & _)]; [left; eauto|].
        right. rewrite <- J3. apply in_map. now apply nth_error_In in J1.
      - intros [(h & Hh & E)|Hin].
        + exists h. split; auto. now apply (I_old HI).
        + apply in_map_iff in Hin as (kv & <- & Hin). apply In_nth_error in Hin as (i & E1).
          destruct (nth_error (pcs s) i) as [p|] eqn:E2.
          * destruct (Hfin _ E2) as (r & ->). exact (I_thr HI _ E1 E2).
          * apply nth_error_None in E2. rewrite (I_len HI) in E2. apply nth_error_None in E2. congruence.
    Qed.
    Lemma fin_winner k : In k (map fst calls) -> ~ In k (keys_of t0) ->
      exists i v, nth_error calls i = Some (k, v) /\ returned s i true /\
        (forall j v', nth_error calls j = Some (k, v') -> j <> i -> returned s j false).
    Proof.
      intros Hin Hno. assert (Hk : In k (keys_of (tab s))) by (apply fin_keys; auto).
      apply (keys_In e0) in Hk as (h & Hh & E). assert (Hl : length (tab s) = m) by apply (I_wf HI). rewrite Hl in Hh.
      destruct (I_new HI Hh E) as [H|(i & kv & p & J1 & J2 & J3 & J4)].
      - destruct Hno. apply (keys_In e0). exists h. destruct Hwf0 as [-> _]. auto.
      - exists i, (snd kv). split; [rewrite J1, <- J3; now destruct kv|]. destruct (Hfin _ J2) as (r & ->).
        assert (r = true) as -> by (destruct J4 as [(x & H)|H]; congruence). split; [exact J2|].
        intros j v' F1 Nj. destruct (nth_error (pcs s) j) as [q|] eqn:F2.
        + destruct (Hfin _ F2) as (r & ->). unfold returned. destruct r; auto. exfalso. apply Nj.
          eapply (I_uni HI); eauto; now right.
        + apply nth_error_None in F2. rewrite (I_len HI) in F2. apply nth_error_None in F2. congruence.
    Qed.
    Lemma fin_present i k v : nth_error calls i = Some (k, v) -> In k (keys_of t0) -> returned s i false.
    Proof using HI Hfin.
      intros E1 Hk. unfold returned. destruct (nth_error (pcs s) i) as [p|] eqn:E2.
      - destruct (Hfin _ E2) as (r & ->). destruct r; auto. exfalso. apply (I_own HI _ E1 E2); auto. now right.
      - apply nth_error_None in E2. rewrite (I_len HI) in E2. apply nth_error_None in E2. congruence.
    Qed.
    (* the updates of key k, in the order in which they were made *)
    Definition klog (k : nat) := filter (fun e => key_of e =? k) (hlog s).
    Lemma klog_In k i b : In (i, b) (klog k) <-> exists v, nth_error calls i = Some (k, v) /\ returned s i b /\ (b = false -> on_old <> None).
    Proof using HI.
      clear Hm Hroom Hwf0.
      unfold klog. rewrite filter_In, (I_log HI). unfold key_of, applied, returned. simpl. rewrite Nat.eqb_eq. split.
      - intros ((p & E2 & -> & Ho) & Ek). assert (Hi : i < length calls) by (rewrite <- (I_len HI); apply nth_error_Some; congruence).
        destruct (nth_error calls i) as [[k' v]|] eqn:E1; [|apply nth_error_None in E1; lia]. rewrite (key_call _ E1) in Ek. simpl in Ek. subst k'. exists v. auto.
      - intros (v & E1 & E2 & Ho). split; [eauto|]. now rewrite (key_call _ E1).
    Qed.
    Lemma klog_NoDup k : NoDup (map fst (klog k)).
    Proof using HI.
      assert (H : NoDup (klog k)) by (apply NoDup_filter', (I_nd HI)).
      assert (Hf : forall i b b', In (i, b) (klog k) -> In (i, b') (klog k) -> b = b').
      { intros i b b' H1 H2. apply klog_In in H1 as (v & _ & R1 & _). apply klog_In in H2 as (v' & _ & R2 & _). unfold returned in *. congruence. }
      revert H Hf. generalize (klog k). induction l as [|[i b] l IH]; intros H Hf; simpl; [constructor|].
      inversion H as [|? ? N1 N2]; subst. constructor.
      - intros Hin. apply in_map_iff in Hin as ([i' b'] & E & Hin). simpl in E. subst i'. apply N1.
        replace b with b'; auto. apply (Hf i); simpl; auto.
      - apply IH; auto. intros i' b1 b2 H1 H2. apply (Hf i'); simpl; auto.
    Qed.
    Lemma fin_value h k : h < m -> key (tab s) h = Some k -> val (tab s) h = fold_left (fun x e => updates e x) (klog k) (val t0 h).
    Proof. intros Hh E. rewrite (I_val HI Hh), E. reflexivity. Qed.
    Lemma fin_wf : wf hash e0 m (tab s).
    Proof. apply HI. Qed.
    (* cells empty in the end hold t0's value *)
    Lemma fin_empty h : h < m -> key (tab s) h = None -> val (tab s) h = val t0 h.
    Proof. intros Hh E. now rewrite (I_val HI Hh), E. Qed.
    Lemma fin_old h k : key t0 h = Some k -> key (tab s) h = Some k.
    Proof. apply (I_old HI). Qed.
  End Fin.
End Phase.

(* -- lookups -------------------------------------------------------------------------- *)
Section Find.
  Variable V : Type.
  Variable hash : nat -> nat.
  Variable e0 : V.
  Variable m : nat.
  Hypothesis Hm : 0 < m.
  Variable t : table V.
  Hypothesis Hwf : wf hash e0 m t.
  Lemma find_loop_spec k : forall fuel d r, path hash e0 m t k d -> d < m ->
    find_loop e0 t k fuel (at_ hash m k d) = Some r ->
    match r with Some v => In (k, v) (entries t) | None => ~ In k (keys_of t) end.
  Proof.
    assert (Hl : length t = m) by apply Hwf.
    induction fuel as [|fuel IH]; intros d r P Hd E; simpl in E; [discriminate|].
    destruct (tkey e0 t (at_ hash m k d)) as [x|] eqn:Ek.
    - destruct (Nat.eqb_spec x k) as [->|N].
      + injection E as <-. apply (entries_In e0). exists (at_ hash m k d). split; auto. rewrite Hl. now apply at_lt.
      + rewrite (at_S hash Hm) in E by auto.
        assert (P' : path hash e0 m t k (S d)).
        { intros j Hj. destruct (Nat.eq_dec j d) as [->|Nj]; [|apply P; lia]. now exists x. }
        destruct (Nat.lt_ge_cases (S d) m) as [Hlt|Hge]; [now apply (IH (S d))|].
        assert (S d = m) by lia.
        (* the search has gone round: k is nowhere *)
        assert (Hno : ~ In k (keys_of t)).
        { intros Hin. apply (keys_In e0) in Hin as (h & Hh & Eh). rewrite Hl in Hh. destruct (at_surj hash Hm k Hh) as (j & Hj & ->).
          destruct (P' j ltac:(lia)) as (k' & E' & N'). congruence. }
        assert (Hr : at_ hash m k (S d) = at_ hash m k 0).
        { unfold at_. rewrite H, Nat.add_0_r. replace m with (1 * m) at 1 by lia. now rewrite Nat.mod_add by lia. }
        rewrite Hr in E. apply (IH 0); auto. intros j Hj. lia.
    - injection E as <-. intros Hin. apply (keys_In e0) in Hin as (h & Hh & Eh). rewrite Hl in Hh. 
      exact (path_empty Hwf P Hd Ek Hh Eh).
  Qed.
  Lemma find_loop_stop k : forall fuel d, path hash e0 m t k d -> d < m -> m - d <= fuel ->
    (exists h, h < m /\ (tkey e0 t h = None \/ tkey e0 t h = Some k)) ->
    exists r, find_loop e0 t k fuel (at_ hash m k d) = Some r.
  Proof.
    assert (Hl : length t = m) by apply Hwf.
    induction fuel as [|fuel IH]; intros d P Hd Hf Hex; simpl; [lia|].
    destruct (tkey e0 t (at_ hash m k d)) as [x|] eqn:Ek; [|eauto].
    destruct (Nat.eqb_spec x k) as [->|N]; [eauto|].
    rewrite (at_S hash Hm) by auto.
    assert (P' : path hash e0 m t k (S d)).
    { intros j Hj. destruct (Nat.eq_dec j d) as [->|Nj]; [|apply P; lia]. now exists x. }
    destruct (Nat.lt_ge_cases (S d) m) as [Hlt|Hge]; [apply IH; auto; lia|].
    exfalso. destruct Hex as (h & Hh & He). destruct (at_surj hash Hm k Hh) as (j & Hj & ->).
    destruct (P' j ltac:(lia)) as (k' & E' & N'). destruct He; congruence.
  Qed.
  Lemma keys_room : distinct (keys_of t) < m -> exists h, h < m /\ tkey e0 t h = None.
  Proof.
    intros Hd. assert (Hl : length t = m) by apply Hwf.
    assert (H : ~ (forall h, h < length t -> tkey e0 t h <> None)).
    { intros H. pose proof (full_length e0 Hm t H) as HF. pose proof (distinct_ge (wf_keys_NoDup Hm Hwf) (incl_refl _)). lia. }
    rewrite <- Hl. clear Hwf Hd Hl. induction t as [|c t' IH]; [destruct H; simpl; lia|].
    destruct c as [[k|] v].
    - destruct IH as (h & Hh & E).
      + intros H'. apply H. intros h Hh. destruct h; [discriminate|]. apply (H' h). simpl in Hh. lia.
      + exists (S h). simpl. split; [lia|exact E].
    - exists 0. simpl. split; [lia|reflexivity].
  Qed.
  Lemma find_total k : distinct (keys_of t) < m \/ In k (keys_of t) ->
    exists r, find_loop e0 t k m (firstIndex hash t k) = Some r /\
      match r with Some v => In (k, v) (entries t) | None => ~ In k (keys_of t) end.
  Proof.
    intros H. assert (Hl : length t = m) by apply Hwf. rewrite (at_0 hash t k Hl).
    assert (P : path hash e0 m t k 0) by (intros j Hj; lia).
    destruct (@find_loop_stop k m 0 P Hm ltac:(lia)) as (r & E).
    - destruct H as [H|H]; [destruct (keys_room H) as (h & Hh & E); eauto|].
      apply (keys_In e0) in H as (h & Hh & E). rewrite Hl in Hh. eauto.
    - exists r. split; auto. exact (find_loop_spec m P Hm E).
  Qed.
  (* a full table: the search for a key that is not there never stops *)
  Lemma find_diverges k : (forall h, h < m -> tkey e0 t h <> None) -> ~ In k (keys_of t) ->
    forall fuel h, h < m -> find_loop e0 t k fuel h = None.
  Proof.
    intros Hfull Hk. assert (Hl : length t = m) by apply Hwf. induction fuel as [|fuel IH]; intros h Hh; simpl; auto.
    destruct (tkey e0 t h) as [x|] eqn:Ek; [|now destruct (Hfull h)].
    destruct (Nat.eqb_spec x k) as [->|N].
    - destruct Hk. apply (keys_In e0). exists h. rewrite Hl. auto.
    - apply IH. unfold incrementIndex. rewrite Hl. apply Nat.mod_upper_bound. lia.
  Qed.
End Find.

(* -- association lists ---------------------------------------------------------------- *)
Lemma lookup_In {V} (l : list (nat * V)) k v : NoDup (map fst l) -> (lookup l k = Some v <-> In (k, v) l).
Proof.
  unfold lookup. induction l as [|[k' v'] l IH]; simpl; intros H; [split; [discriminate|intros []]|].
  inversion H as [|? ? N1 N2]; subst. destruct (Nat.eqb_spec k' k) as [->|N]; simpl.
  - split.
    + intros E. injection E as ->. now left.
    + intros [E|Hin]; [now injection E as ->|]. destruct N1. change k with (fst (k, v)). now apply in_map.
  - rewrite IH by auto. split; auto. intros [E|Hin]; auto. congruence.
Qed.
Lemma lookup_None {V} (l : list (nat * V)) k : lookup l k = None <-> ~ In k (map fst l).
Proof.
  unfold lookup. induction l as [|[k' v'] l IH]; simpl; [tauto|]. destruct (Nat.eqb_spec k' k) as [->|N]; simpl.
  - split; [discriminate|]. intros H. destruct H. now left.
  - rewrite IH. tauto.
Qed.

(* -- one sequential insertion --------------------------------------------------------- *)
Section SeqIns.
  Variable V : Type.
  Variable hash : nat -> nat.
  Variable e0 : V.
  Variable m : nat.
  Hypothesis Hm : 0 < m.
  Notation wf := (wf hash e0 m).
  Definition clean (t : table V) : Prop := forall h, tkey e0 t h = None -> tval e0 t h = e0.
  Lemma new_clean : clean (new_table e0 m).
  Proof. intros h _. unfold tval, new_table. now rewrite nth_repeat. Qed.
  Lemma lookup_cell t h k : wf t -> h < m -> tkey e0 t h = Some k -> lookup (entries t) k = Some (tval e0 t h).
  Proof.
    intros Hwf Hh E. apply lookup_In; [apply (wf_keys_NoDup Hm Hwf)|]. apply (entries_In e0). exists h. destruct Hwf as [-> _]. auto.
  Qed.
  Lemma lookup_absent t k : wf t -> (forall h, h < m -> tkey e0 t h <> Some k) -> lookup (entries t) k = None.
  Proof.
    intros Hwf H. apply lookup_None. intros Hin. apply (keys_In e0) in Hin as (h & Hh & E). destruct Hwf as [L _]. rewrite L in Hh. now apply (H h).
  Qed.
  Lemma lookup_other t t' k : wf t -> wf t' ->
    (forall h, h < m -> tkey e0 t h = Some k <-> tkey e0 t' h = Some k) ->
    (forall h, h < m -> tkey e0 t h = Some k -> tval e0 t h = tval e0 t' h) -> lookup (entries t') k = lookup (entries t) k.
  Proof.
    intros W W' Hk Hv. destruct (lookup (entries t) k) as [v|] eqn:E.
    - apply lookup_In in E; [|exact (wf_keys_NoDup Hm W)]. apply (entries_In e0) in E as (h & Hh & E1 & E2).
      rewrite (proj1 W) in Hh. rewrite (@lookup_cell t' h k W' Hh); [|now apply Hk]. now rewrite <- Hv, E2 by auto.
    - apply lookup_absent; auto. intros h Hh E'. apply Hk in E'; auto. rewrite (@lookup_cell t h k W Hh E') in E. discriminate.
  Qed.
  Lemma seq_loop_ok fresh again t k : wf t -> clean t -> distinct (k :: keys_of t) <= m ->
    forall fuel d, path hash e0 m t k d -> d < m -> m - d <= fuel ->
    exists t', seq_insert_loop e0 fresh again k fuel (at_ hash m k d) t = Some t' /\ wf t' /\ clean t' /\
      (forall k', lookup (entries t') k' = if k' =? k then Some (match lookup (entries t) k with None => fresh e0 | Some v => again v end)
                                           else lookup (entries t) k').
  Proof.
    intros Hwf Hcl Hroom. assert (Hl : length t = m) by apply Hwf.
    induction fuel as [|fuel IH]; intros d P Hd Hf; simpl; [lia|]. pose proof (at_lt hash Hm k d) as Hlt.
    set (h := at_ hash m k d) in *.
    assert (Hrd : forall c j, nth j (lset t h c) (None, e0) = if j =? h then c else nth j t (None, e0)).
    { intros c j. rewrite nth_lset, (Nat.eqb_sym h j). destruct (Nat.eqb_spec j h) as [->|]; simpl; auto. rewrite Hl. apply Nat.ltb_lt in Hlt. now rewrite Hlt. }
    destruct (tkey e0 t h) as [x|] eqn:Ek.
    - destruct (Nat.eqb_spec x k) as [->|N].
      + (* present *)
        set (t' := lset t h (Some k, again (tval e0 t h))).
        assert (Hkeys : forall j, tkey e0 t' j = tkey e0 t j).
        { intros j. unfold t', tkey. rewrite Hrd. destruct (Nat.eqb_spec j h) as [->|]; auto. }
        assert (Hvals : forall j, tval e0 t' j = if j =? h then again (tval e0 t h) else tval e0 t j).
        { intros j. unfold t', tval. rewrite Hrd. destruct (Nat.eqb_spec j h) as [->|]; auto. }
        assert (W' : wf t') by (eapply wf_ext; [exact Hm| |exact Hkeys|exact Hwf]; apply length_lset).
        exists t'. split; auto. split; auto. split.
        { intros j Ej. rewrite Hkeys in Ej. rewrite Hvals. destruct (Nat.eqb_spec j h) as [->|]; [congruence|auto]. }
        intros k'. destruct (Nat.eqb_spec k' k) as [->|Nk].
        * rewrite (@lookup_cell t h k), (@lookup_cell t' h k); auto; [|now rewrite Hkeys]. rewrite Hvals, Nat.eqb_refl. reflexivity.
        * apply lookup_other; auto; [intros; now rewrite Hkeys|]. intros j Hj Ej. rewrite Hvals. destruct (Nat.eqb_spec j h) as [->|]; [congruence|auto].
      + assert (P' : path hash e0 m t k (S d)).
        { intros j Hj. destruct (Nat.eq_dec j d) as [->|Nj]; [|apply P; lia]. now exists x. }
        unfold h. rewrite (at_S hash Hm) by auto. apply IH; auto; [|lia].
        eapply path_short with (l := k :: keys_of t); [exact Hm|exact Hwf|exact P'|apply incl_refl|auto].
    - (* absent *)
      set (t' := lset t h (Some k, fresh (tval e0 t h))).
      assert (Habs : forall j, j < m -> tkey e0 t j <> Some k) by (eapply path_empty; eauto).
      assert (Hkeys : forall j, tkey e0 t' j = if j =? h then Some k else tkey e0 t j).
      { intros j. unfold t', tkey. rewrite Hrd. destruct (Nat.eqb_spec j h) as [->|]; auto. }
      assert (Hvals : forall j, tval e0 t' j = if j =? h then fresh (tval e0 t h) else tval e0 t j).
      { intros j. unfold t', tval. rewrite Hrd. destruct (Nat.eqb_spec j h) as [->|]; auto. }
      assert (W' : wf t').
      { eapply wf_ext; [exact Hm| | |eapply wf_put with (d := d); eauto].
        - unfold t', set_key. now rewrite !length_lset.
        - intros j. rewrite Hkeys, key_set_key by lia. reflexivity. }
      exists t'. split; auto. split; auto. split.
      { intros j Ej. rewrite Hkeys in Ej. rewrite Hvals. destruct (Nat.eqb_spec j h); [discriminate|auto]. }
      intros k'. destruct (Nat.eqb_spec k' k) as [->|Nk].
      * rewrite (@lookup_absent t k) by auto. rewrite (@lookup_cell t' h k); auto; [|now rewrite Hkeys, Nat.eqb_refl].
        rewrite Hvals, Nat.eqb_refl. now rewrite (Hcl h Ek).
      * apply lookup_other; auto.
        -- intros j Hj. rewrite Hkeys. destruct (Nat.eqb_spec j h) as [->|]; [|tauto]. rewrite Ek. split; congruence.
        -- intros j Hj Ej. rewrite Hvals. destruct (Nat.eqb_spec j h) as [->|]; [congruence|auto].
  Qed.
  Lemma seq_insert_ok fresh again t k : wf t -> clean t -> distinct (k :: keys_of t) <= m ->
    exists t', seq_insert hash e0 fresh again k t = Some t' /\ wf t' /\ clean t' /\
      (forall k', lookup (entries t') k' = if k' =? k then Some (match lookup (entries t) k with None => fresh e0 | Some v => again v end)
                                           else lookup (entries t) k').
  Proof.
    intros Hwf Hcl Hr. unfold seq_insert. assert (Hl : length t = m) by apply Hwf. rewrite Hl, (at_0 hash t k Hl).
    apply seq_loop_ok; auto; [intros j Hj; lia|lia].
  Qed.
  Lemma distinct_incl l l' : incl l l' -> distinct l <= distinct l'.
  Proof. intros H. unfold distinct at 1. apply distinct_ge; [apply NoDup_nodup|]. intros x Hx. apply nodup_In in Hx. auto. Qed.

  Lemma insert_all_ok {A} (fresh again : A -> V -> V) (key : A -> nat) (l : list A) : forall t, wf t -> clean t ->
    distinct (keys_of t ++ map key l) <= m ->
    exists t', insert_all (fun x => seq_insert hash e0 (fresh x) (again x) (key x)) l t = Some t' /\ wf t' /\ clean t' /\
      forall k, lookup (entries t') k =
        fold_left (fun o x => Some (match o with None => fresh x e0 | Some v => again x v end)) (with_key key k l) (lookup (entries t) k).
  Proof.
    induction l as [|x l IH]; intros t Hwf Hcl Hr; simpl.
    - exists t. auto.
    - destruct (@seq_insert_ok (fresh x) (again x) t (key x) Hwf Hcl) as (t1 & E1 & W1 & C1 & L1).
      { etransitivity; [|exact Hr]. apply distinct_incl. intros y [<-|Hy]; apply in_or_app; simpl; auto. }
      rewrite E1. destruct (IH t1 W1 C1) as (t' & E' & W' & C' & L').
      { etransitivity; [|exact Hr]. apply distinct_incl. intros y Hy. apply in_app_or in Hy as [Hy|Hy]; apply in_or_app; simpl; auto.
        assert (Hy' : ~ (lookup (entries t1) y = None)) by (intros E; now apply lookup_None in E).
        rewrite L1 in Hy'. destruct (Nat.eqb_spec y (key x)) as [->|]; auto. left.
        destruct (in_dec Nat.eq_dec y (keys_of t)) as [|N]; auto. now apply lookup_None in N. }
      exists t'. split; auto. split; auto. split; auto. intros k. rewrite L'. unfold with_key. simpl.
      rewrite L1, (Nat.eqb_sym k). destruct (Nat.eqb_spec (key x) k) as [->|]; reflexivity.
  Qed.
End SeqIns.

(* two association lists with the same lookups and no repeated key have the same elements *)
Lemma lookup_perm {V} (a b : list (nat * V)) : NoDup (map fst a) -> NoDup (map fst b) ->
  (forall k, lookup a k = lookup b k) -> Permutation a b.
Proof.
  intros Ha Hb H. apply NoDup_Permutation; try (eapply NoDup_map_inv; eauto).
  intros [k v]. rewrite <- !lookup_In by auto. now rewrite H.
Qed.

(* -- reachable tables ----------------------------------------------------------------- *)
Section Reach.
  Variable V : Type.
  Variable hash : nat -> nat.
  Variable e0 : V.
  Variable on_new : V -> V -> V.
  Variable on_old : option (V -> V -> V).
  Variable m : nat.
  Hypothesis Hm : 0 < m.
  Notation exec := (exec e0 on_new on_old).
  Lemma reached_ok t : reached hash e0 on_new on_old m t -> wf hash e0 m t /\ clean e0 t.
  Proof.
    induction 1 as [|t calls sched Hr [W C] Hd Hf].
    - split; [now apply new_wf|]. eapply new_clean; eauto.
    - assert (HI : Inv hash e0 on_new on_old m t calls (exec calls sched (start hash t calls))) by (apply Inv_exec; auto; apply Inv_start; auto).
      split; [apply HI|]. intros h E. destruct (Nat.lt_ge_cases h m) as [Hh|Hge].
      + rewrite (fin_empty HI Hh E). apply C. destruct (tkey e0 t h) as [k|] eqn:Ek; auto. apply (I_old HI) in Ek. congruence.
      + unfold tval. rewrite nth_overflow; auto. destruct (I_wf HI) as [-> _]. auto.
  Qed.
  Section Final.
    Variable t : table V.
    Hypothesis Hr : reached hash e0 on_new on_old m t.
    Variable calls : list (nat * V).
    Hypothesis Hd : distinct (keys_of t ++ map fst calls) <= m.
    Variable sched : list nat.
    Notation s := (exec calls sched (start hash t calls)).
    Hypothesis Hfin : finished s.
    Lemma HIs : Inv hash e0 on_new on_old m t calls s.
    Proof. destruct (reached_ok Hr) as [W C]. apply Inv_exec; auto. apply Inv_start; auto. Qed.
    (* the value stored for k in the end *)
    Lemma final_lookup k : In k (keys_of t) \/ In k (map fst calls) ->
      lookup (entries (tab s)) k =
        Some (fold_left (fun x e => updates on_new on_old calls e x) (klog calls s k)
                        (match lookup (entries t) k with Some v => v | None => e0 end)).
    Proof.
      intros Hk. destruct (reached_ok Hr) as [W C]. pose proof HIs as HI.
      apply (fin_keys W HI Hfin) in Hk. apply (keys_In e0) in Hk as (h & Hh & E). rewrite (proj1 (I_wf HI)) in Hh.
      rewrite (@lookup_cell _ hash e0 m Hm _ h k (I_wf HI) Hh E). f_equal. rewrite (fin_value HI Hh E). f_equal.
      destruct (tkey e0 t h) as [k'|] eqn:Ek.
      - assert (k' = k) as -> by (apply (I_old HI) in Ek; congruence). now rewrite (@lookup_cell _ hash e0 m Hm t h k W Hh Ek).
      - rewrite (C h Ek). rewrite (@lookup_absent _ hash e0 m t k W); auto. intros h' Hh' Ek'. pose proof (I_old HI _ Ek') as Ek''.
        assert (h' = h) as -> by exact (wf_unique (I_wf HI) Hh' Hh Ek'' E). congruence.
    Qed.
    Lemma final_lookup_none k : ~ In k (keys_of t) -> ~ In k (map fst calls) -> lookup (entries (tab s)) k = None.
    Proof.
      intros H1 H2. destruct (reached_ok Hr) as [W C]. apply lookup_None. intros H.
      apply (fin_keys W HIs Hfin) in H. tauto.
    Qed.
  End Final.
End Reach.

(* -- insert: the first one wins -------------------------------------------------------- *)
Section Insert.
  Variable V : Type.
  Variable hash : nat -> nat.
  Variable e0 : V.
  Variable m : nat.
  Hypothesis Hm : 0 < m.
  Notation put := (fun _ v : V => v).
  Notation exec := (exec e0 put None).
  Lemma insert_log_old t calls s k : Inv hash e0 put None m t calls s -> finished s -> wf hash e0 m t ->
    In k (keys_of t) -> klog calls s k = [].
  Proof.
    intros HI Hf W Hk. destruct (klog calls s k) as [|[i b] l] eqn:E; auto.
    assert (Hin : In (i, b) (klog calls s k)) by (rewrite E; now left). apply (klog_In HI) in Hin as (v & E1 & R & Hb).
    pose proof (fin_present HI Hf i E1 Hk) as R'. unfold returned in *. assert (b = false) as -> by congruence. now destruct Hb.
  Qed.
  Lemma insert_log_new t calls s k i : Inv hash e0 put None m t calls s ->
    (exists v, nth_error calls i = Some (k, v)) -> returned s i true ->
    (forall j v', nth_error calls j = Some (k, v') -> j <> i -> returned s j false) -> klog calls s k = [(i, true)].
  Proof.
    intros HI (v & E1) R Hoth. pose proof (klog_NoDup HI k) as ND.
    assert (Hall : forall j b, In (j, b) (klog calls s k) <-> j = i /\ b = true).
    { intros j b. rewrite (klog_In HI). split.
      - intros (v' & F1 & F2 & F3). destruct b; [|now destruct F3]. split; auto.
        destruct (Nat.eq_dec j i) as [|N]; auto. specialize (Hoth _ _ F1 N). unfold returned in *. congruence.
      - intros [-> ->]. exists v. split; auto. split; auto. discriminate. }
    revert ND Hall. generalize (klog calls s k). intros [|[a b] l] ND Hall.
    - destruct (proj2 (Hall i true)); auto.
    - destruct (proj1 (Hall a b)) as [-> ->]; [now left|]. f_equal. destruct l as [|[a' b'] l]; auto. exfalso.
      destruct (proj1 (Hall a' b')) as [-> ->]; [right; now left|]. simpl in ND. inversion ND as [|? ? N _]. apply N. now left.
  Qed.
End Insert.

Lemma filter_map_swap' {A B} (f : A -> B) p l : filter p (map f l) = map f (filter (fun x => p (f x)) l).
Proof. induction l as [|x l IH]; simpl; auto. destruct (p (f x)); simpl; congruence. Qed.
(* -- insert_f / additive insert: everybody's update is applied exactly once ------------ *)
Lemma perm_values {V} (on_new : V -> V -> V) (f : V -> V -> V) hash e0 m t calls s k :
  Inv hash e0 on_new (Some f) m t calls s -> finished s ->
  Permutation (map (fun e => nth (fst e) (map snd calls) e0) (klog calls s k)) (map snd (with_key fst k calls)).
Proof.
  intros HI Hfin.
  assert (H1 : Permutation (map fst (klog calls s k)) (filter (fun i => nth i (map fst calls) 0 =? k) (seq 0 (length calls)))).
  { apply NoDup_Permutation; [exact (klog_NoDup HI k)|apply NoDup_filter', seq_NoDup|].
    intros i. rewrite filter_In, in_seq, Nat.eqb_eq. split.
    - intros Hin. apply in_map_iff in Hin as ([j b] & <- & Hin). simpl. apply (klog_In HI) in Hin as (v & E & _).
      split; [assert (j < length calls) by (apply nth_error_Some; congruence); lia|].
      apply nth_error_nth. now rewrite nth_error_map, E.
    - intros [Hi Ek]. destruct (nth_error calls i) as [[k' v]|] eqn:E; [|apply nth_error_None in E; lia].
      rewrite (@nth_error_nth _ (map fst calls) i k') in Ek by now rewrite nth_error_map, E. subst k'.
      destruct (nth_error (pcs s) i) as [p|] eqn:E2.
      + destruct (Hfin _ _ E2) as (r & ->). apply in_map_iff. exists (i, r). split; auto. apply (klog_In HI).
        exists v. split; auto. split; auto. discriminate.
      + apply nth_error_None in E2. rewrite (I_len HI) in E2. apply nth_error_None in E2. congruence. }
  apply (Permutation_map (fun i => nth i (map snd calls) e0)) in H1. rewrite map_map in H1. etransitivity; [exact H1|].
  clear. unfold with_key. induction calls as [|[k' v] l IH]; [constructor|]. cbn [length]. cbn [seq filter map fst snd nth].
  rewrite <- seq_shift, filter_map_swap'.
  destruct (k' =? k); simpl; rewrite map_map; [constructor|]; exact IH.
Qed.

(* -- compaction ------------------------------------------------------------------------ *)
Lemma compactInto_ok {V E} (e0 : V) (f : nat * V -> option E) t : clean e0 t ->
  compactInto e0 f t = (new_table e0 (length t), outputs f (entries t)).
Proof.
  induction t as [|[o v] t IH]; intros C; [reflexivity|].
  assert (C' : clean e0 t) by (intros h; exact (C (S h))). specialize (IH C'). simpl. rewrite IH. simpl. destruct o as [k|].
  - unfold new_table. simpl. f_equal. unfold outputs. simpl. destruct (f (k, v)); reflexivity.
  - unfold new_table. simpl. f_equal. f_equal. f_equal. exact (C 0 eq_refl).
Qed.
Lemma lset_app_r {A} (a b : list A) i x : lset (a ++ b) (length a + i) x = a ++ lset b i x.
Proof. induction a; simpl; congruence. Qed.
Lemma lset_app_l {A} (a b : list A) i x : i < length a -> lset (a ++ b) i x = lset a i x ++ b.
Proof. revert i; induction a; intros [|i] H; simpl in *; try lia; auto. f_equal. apply IHa. lia. Qed.
Lemma lset_repeat_first {V} (e0 : V) (outs : list (nat * V)) z c : lset (cells outs ++ repeat (None, e0) (S z)) (length outs) c = cells outs ++ c :: repeat (None, e0) z.
Proof.
  replace (length outs) with (length (cells outs) + 0) by (unfold cells; rewrite map_length; lia). now rewrite lset_app_r.
Qed.
Lemma cself_run {V} (e0 : V) (f : nat * V -> option (nat * V)) : forall rest outs z i, clean e0 rest ->
  i = length outs + z ->
  fold_left (cself_step e0 f) (seq i (length rest)) (cells outs ++ repeat (None, e0) z ++ rest, length outs) =
    let o := outs ++ outputs f (entries rest) in
    (cells o ++ repeat (None, e0) (length outs + z + length rest - length o), length o).
Proof.
  induction rest as [|[o v] rest IH]; intros outs z i C Hi.
  - simpl. rewrite !app_nil_r, Nat.add_0_r. f_equal. f_equal. f_equal. lia.
  - assert (C' : clean e0 rest) by (intros h; exact (C (S h))).
    cbn [length seq fold_left].
    assert (Hlen : length (cells outs ++ repeat (None, e0) z) = i) by (unfold cells; rewrite app_length, map_length, repeat_length; lia).
    assert (Hnth : nth i (cells outs ++ repeat (None, e0) z ++ (o, v) :: rest) (None, e0) = (o, v)).
    { rewrite app_assoc, app_nth2 by lia. replace (i - length (cells outs ++ repeat (None, e0) z)) with 0 by lia. reflexivity. }
    assert (Hset : forall c, lset (cells outs ++ repeat (None, e0) z ++ (o, v) :: rest) i c = cells outs ++ repeat (None, e0) z ++ c :: rest).
    { intros c. rewrite !app_assoc. replace i with (length (cells outs ++ repeat (None, e0) z) + 0) by lia. now rewrite lset_app_r. }
    assert (Hrep : repeat (None, e0) z ++ (None, e0) :: rest = repeat (None : option nat, e0) (S z) ++ rest).
    { change ((None, e0) :: rest) with ([(None : option nat, e0)] ++ rest). rewrite app_assoc. f_equal.
      change [(None : option nat, e0)] with (repeat (None : option nat, e0) 1). rewrite <- repeat_app. f_equal. lia. }
    unfold cself_step at 2. unfold tkey, tval. rewrite Hnth. cbn [fst snd].
    destruct o as [k|].
    + rewrite Hset, Hrep. unfold entries at 1 2 3. cbn [flat_map fst snd app]. fold (entries rest). unfold outputs at 1 2 3. cbn [flat_map].
      destruct (f (k, v)) as [[k' v']|] eqn:Ef.
      * rewrite app_assoc, lset_app_l by (unfold cells; rewrite app_length, map_length, repeat_length; lia).
        rewrite lset_repeat_first. cbn [fst snd].
        replace ((cells outs ++ (Some k', v') :: repeat (None, e0) z) ++ rest) with (cells (outs ++ [(k', v')]) ++ repeat (None, e0) z ++ rest).
        2:{ unfold cells. rewrite map_app. simpl. now rewrite <- !app_assoc. }
        replace (S (length outs)) with (length (outs ++ [(k', v')])) by (rewrite app_length; simpl; lia).
        rewrite IH; [|auto|rewrite app_length; simpl; lia]. rewrite <- app_assoc. cbn [app]. cbv zeta. 
        fold (outputs f (entries rest)). f_equal. f_equal. f_equal. rewrite !app_length. simpl. lia.
      * rewrite (IH outs (S z)); [|auto|lia]. cbv zeta. cbn [app]. fold (outputs f (entries rest)). f_equal. f_equal. f_equal. lia.
    + assert (v = e0) as -> by exact (C 0 eq_refl). rewrite Hrep, (IH outs (S z)); [|auto|lia]. cbv zeta.
      unfold entries at 4 5 6. cbn [flat_map fst app]. fold (entries rest). f_equal. f_equal. f_equal. lia.
Qed.
Lemma compactIntoSelf_ok {V} (e0 : V) (f : nat * V -> option (nat * V)) t : clean e0 t ->
  compactIntoSelf e0 f t =
    (cells (outputs f (entries t)) ++ repeat (None, e0) (length t - length (outputs f (entries t))), length (outputs f (entries t))).
Proof. intros C. exact (cself_run f [] 0 C eq_refl). Qed.

(* -- sizes ----------------------------------------------------------------------------- *)
Lemma sparse_table_size_gt x : x < sparse_table_size x.
Proof.
  unfold sparse_table_size. destruct (Nat.eq_dec x 0) as [->|]; [simpl; lia|].
  pose proof (Nat.log2_up_spec (x + 1)). lia.
Qed.
Lemma additive_map_size_cases d : 1 <= d -> (additive_map_size d = d /\ In d [1;2;4;8]) \/ (d < additive_map_size d /\ ~ In d [1;2;4;8]).
Proof.
  intros H. unfold additive_map_size. destruct (Nat.le_gt_cases 10 d) as [Hge|Hlt].
  - right. assert (d + 1 <= 11 * d / 10) by (apply Nat.div_le_lower_bound; lia).
    pose proof (Nat.log2_up_spec (11 * d / 10) ltac:(lia)). split; [lia|]. simpl. lia.
  - do 10 (destruct d as [|d]; [try lia; cbn; lia|]). lia.
Qed.

Lemma find_loop_mono {V} (e0 : V) t k : forall fuel fuel' h r, fuel <= fuel' -> find_loop e0 t k fuel h = Some r -> find_loop e0 t k fuel' h = Some r.
Proof.
  induction fuel as [|fuel IH]; intros [|fuel'] h r Hle E; simpl in *; try discriminate; try lia.
  destruct (tkey e0 t h) as [x|]; auto. destruct (x =? k); auto. apply IH; auto. lia.
Qed.
Lemma fold_add_mod W l : forall x, 0 < W -> fold_left (fun a b => (a + b) mod W) l x mod W = (x + list_sum l) mod W.
Proof.
  induction l as [|y l IH]; intros x HW; simpl; [now rewrite Nat.add_0_r|].
  rewrite IH by auto. rewrite Nat.add_mod_idemp_l by lia. f_equal. lia.
Qed.
Lemma perm_list_sum l l' : Permutation l l' -> list_sum l = list_sum l'.
Proof. induction 1; simpl; lia. Qed.
