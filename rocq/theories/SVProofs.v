(* Proofs for C56 and, for the pointer-jumping part, C57. *)
From Verif Require Import Base ListUtil EMModel SVModel UFSpec.

(* ---------- roots of a forest ---------- *)
Section Forest.
  Variable n : nat.
  Variable m : nat -> nat.
  Definition ranked (par : nat -> nat) : Prop :=
    forall x, x < n -> par x < n /\ (par x = x \/ m (par x) < m x).
  (* R maps every vertex to the root of its tree *)
  Definition rooted (par R : nat -> nat) : Prop :=
    forall x, x < n -> R x < n /\ R (par x) = R x /\ (par x = x <-> R x = x).

  Definition rootf (par : nat -> nat) (x : nat) : nat := Nat.iter (S (m x)) par x.
  Lemma iter_fix k (par : nat -> nat) x : par x = x -> Nat.iter k par x = x.
  Proof. intros H. induction k; simpl; congruence. Qed.
  Lemma iter_comm k (par : nat -> nat) x : Nat.iter k par (par x) = par (Nat.iter k par x).
  Proof. induction k; simpl; congruence. Qed.
  Lemma iter_stop par : ranked par -> forall k x, x < n -> m x < k -> Nat.iter k par x < n /\ par (Nat.iter k par x) = Nat.iter k par x.
  Proof.
    intros HR. induction k; intros x Hx Hk; [lia|]. destruct (HR x Hx) as [H1 H2]. simpl. rewrite <- iter_comm.
    destruct H2 as [H2|H2].
    - rewrite H2. rewrite iter_fix; auto.
    - apply IHk; auto. lia.
  Qed.
  Lemma iter_stable (par : nat -> nat) x k j : par (Nat.iter k par x) = Nat.iter k par x -> k <= j -> Nat.iter j par x = Nat.iter k par x.
  Proof.
    intros H Hj. replace j with ((j - k) + k) by lia. generalize (j - k) as i. intros i. induction i; simpl; congruence.
  Qed.
  Lemma rootf_rooted par : ranked par -> rooted par (rootf par).
  Proof.
    intros HR x Hx. destruct (iter_stop HR (k := S (m x)) Hx) as [A B]; [lia|]. destruct (HR x Hx) as [H1 H2].
    split; [exact A|]. split; [|split].
    - destruct H2 as [H2|H2]; [now rewrite H2|]. unfold rootf.
      destruct (iter_stop HR (k := S (m (par x))) H1) as [C D]; [lia|].
      rewrite <- (@iter_stable par (par x) (S (m (par x))) (m x)); auto.
      change (Nat.iter (m x) par (par x) = Nat.iter (S (m x)) par x). simpl. now rewrite iter_comm.
    - intros E. unfold rootf. now apply iter_fix.
    - intros E. unfold rootf in E. now rewrite E in B.
  Qed.
  Lemma rooted_root par R x : ranked par -> rooted par R -> x < n -> par (R x) = R x.
  Proof.
    intros HK HR. revert x. assert (G : forall k x, m x <= k -> x < n -> par (R x) = R x).
    { induction k; intros x Hk Hx; destruct (HK x Hx) as [A B]; destruct (HR x Hx) as (C & D & E).
      - destruct B as [B|B]; [|lia]. now rewrite (proj1 E B).
      - destruct B as [B|B]; [now rewrite (proj1 E B)|]. rewrite <- D. apply IHk; auto. lia. }
    intros x Hx. now apply (G (m x)).
  Qed.
  Lemma rooted_idem par R x : ranked par -> rooted par R -> x < n -> R (R x) = R x.
  Proof. intros HK HR Hx. pose proof (HR x Hx) as (A & _). apply (proj2 (proj2 (HR _ A))). now apply rooted_root. Qed.
  Lemma rooted_le par R x : ranked par -> rooted par R -> x < n -> R x = x \/ m (R x) < m x.
  Proof.
    intros HK HR. revert x. assert (G : forall k x, m x <= k -> x < n -> R x = x \/ m (R x) < m x).
    { induction k; intros x Hk Hx; destruct (HK x Hx) as [A B]; destruct (HR x Hx) as (C & D & E).
      - destruct B as [B|B]; [|lia]. left. now apply E.
      - destruct B as [B|B]; [left; now apply E|]. right. rewrite <- D. destruct (IHk (par x)) as [F|F]; auto; try lia. rewrite F. auto. }
    intros x Hx. now apply (G (m x)).
  Qed.
End Forest.

(* ---------- pointer jumping ---------- *)
Section Jumping.
  Variable largest n : nat.
  Variable m R : nat -> nat.
  Variable full : bool.       (* every task jumps to its root *)

  Definition jlocal (par : nat -> nat) (u : nat) (pc : jpc) : Prop :=
    u < n /\
    match pc with
    | A1 => True
    | A2 a => a = par u
    | A3 a b => a = par u /\ b = par u
    | A4 => R u <> par u
    | A5 b => b = par u /\ R u <> b
    | A6 c => c < n /\ R c = R u /\ m c < m (par u)
    | A7 => R u = par u
    | B1 f => n <= largest /\ (full = true -> f = true)
    | B2 f p => (n <= largest /\ (full = true -> f = true)) /\ p = par u
    | B3 f p => (n <= largest /\ (full = true -> f = true)) /\ p = par u /\ R u <> p
    | B4 f q => (n <= largest /\ (full = true -> f = true)) /\ q < n /\ R q = R u /\ m q < m (par u)
    | JDone x => full = true -> x = R u /\ par u = R u
    end.
  (* par1: the array before *)
  Definition jinv (par1 : nat -> nat) (vs : list nat) (s : jstate) : Prop :=
    ranked n m (jpar s) /\ rooted n (jpar s) R /\
    map fst (jthr s) = vs /\
    (forall u pc, In (u, pc) (jthr s) -> jlocal (jpar s) u pc) /\
    (forall u, ~ In u vs -> jpar s u = par1 u) /\
    (forall u, u < n -> m (jpar s u) <= m (par1 u)).

  Lemma map_fst_lset {X} (l : list (nat * X)) t u x y : nth_error l t = Some (u, x) -> map fst (lset l t (u, y)) = map fst l.
  Proof.
    revert t. induction l as [|[a b] l IH]; intros t; destruct t; simpl; try discriminate.
    - intros E. injection E as -> ->. auto.
    - intros E. now rewrite IH.
  Qed.
  Lemma in_lset_nodup {X} (l : list (nat * X)) t u x y v z : NoDup (map fst l) -> nth_error l t = Some (u, x) ->
    In (v, z) (lset l t (u, y)) -> (v = u /\ z = y) \/ (v <> u /\ In (v, z) l).
  Proof.
    revert t. induction l as [|[a b] l IH]; intros t ND E; destruct t; simpl in *; try discriminate; inversion ND as [|? ? N1 N2]; subst.
    - injection E as -> ->. intros [F|F].
      + injection F as -> ->. auto.
      + right. split; auto. intros ->. apply N1. now apply (in_map fst) in F.
    - intros [F|F].
      + injection F as -> ->. right. split; auto. intros ->. apply N1. apply nth_error_In in E. now apply (in_map fst) in E.
      + destruct (IH t N2 E F) as [?|[? ?]]; auto.
  Qed.

  (* a task that does not write keeps everything but its own pc *)
  Lemma jlocal_other par u c v pc : v <> u -> jlocal par v pc -> jlocal (fset par u c) v pc.
  Proof. intros H [Hv L]. split; auto. destruct pc; rewrite ?(fset_other par c H); auto. Qed.

  Lemma store_ok par u c : ranked n m par -> rooted n par R -> u < n -> c < n -> R c = R u -> m c < m (par u) -> R u <> u ->
    ranked n m (fset par u c) /\ rooted n (fset par u c) R.
  Proof.
    intros HK HR Hu Hc E1 E2 Hn. destruct (HK u Hu) as [_ K]. destruct (HR u Hu) as (U1 & U2 & U3). split; intros x Hx.
    - destruct (Nat.eq_dec x u) as [->|Hne].
      + rewrite fset_same. split; auto. right. destruct K as [K|K]; [|lia]. rewrite K in E2. auto.
      + rewrite (fset_other par c Hne). now apply HK.
    - destruct (Nat.eq_dec x u) as [->|Hne].
      + rewrite fset_same. repeat split; auto; intros E.
        * exfalso. subst c. destruct K as [K|K]; [apply Hn; now apply U3|lia].
        * contradiction.
      + rewrite (fset_other par c Hne). now apply HR.
  Qed.

  Lemma jstep_inv par1 vs s t : NoDup vs ->
    jinv par1 vs s -> jinv par1 vs (jstep largest s t).
  Proof.
    intros ND HI. unfold jstep. destruct (nth_error (jthr s) t) as [[u pc]|] eqn:Et; [|exact HI]. destruct HI as (HK & HR & HM & HT & HO & HD).
    pose proof (nth_error_In _ _ Et) as Hin. destruct (HT u pc Hin) as [Hu L]. 
    assert (ND' : NoDup (map fst (jthr s))) by now rewrite HM.
    assert (Huv : In u vs) by (rewrite <- HM; now apply (in_map fst) in Hin).
    destruct (HK u Hu) as [Ku Ku']. destruct (HR u Hu) as (U1 & U2 & U3).
    destruct (HK _ Ku) as [Kp Kp']. destruct (HR _ Ku) as (V1 & V2 & V3).
    (* steps without a store *)
    assert (NW : forall pc', jlocal (jpar s) u pc' -> jinv par1 vs {| jpar := jpar s; jthr := lset (jthr s) t (u, pc') |}).
    { intros pc' L'. split; [auto|]. split; [auto|]. split; [cbn; now rewrite (@map_fst_lset _ _ _ _ _ pc' Et)|]. split; [|auto].
      cbn. intros v z Hz. destruct (@in_lset_nodup _ _ _ _ _ _ _ _ ND' Et Hz) as [[-> ->]|[_ Hz']]; auto. }
    (* steps with a store *)
    assert (WR : forall c pc', c < n -> R c = R u -> m c < m (jpar s u) -> R u <> u -> jlocal (fset (jpar s) u c) u pc' ->
      jinv par1 vs {| jpar := fset (jpar s) u c; jthr := lset (jthr s) t (u, pc') |}).
    { intros c pc' C1 C2 C3 C4 L'. destruct (store_ok HK HR Hu C1 C2 C3 C4) as [W1 W2].
      split; [auto|]. split; [auto|]. split; [cbn; now rewrite (@map_fst_lset _ _ _ _ _ pc' Et)|]. split; [|split]; cbn.
      - intros v z Hz. destruct (@in_lset_nodup _ _ _ _ _ _ _ _ ND' Et Hz) as [[-> ->]|[Hne Hz']]; auto. apply jlocal_other; auto.
      - intros v Hv. rewrite fset_other; auto. intros ->. contradiction.
      - intros v Hv. destruct (Nat.eq_dec v u) as [->|Hne]; [rewrite fset_same|rewrite fset_other by auto]; auto.
        specialize (HD u Hu). lia. }
    destruct pc; cbn [jact].
    - apply NW. now split.
    - apply NW. now split.
    - destruct L as [-> ->]. apply NW. split; auto. destruct (Nat.eqb_spec (jpar s u) (jpar s (jpar s u))) as [E|E].
      + symmetry in E. apply V3 in E. congruence.
      + intros F. apply E. symmetry. apply V3. congruence.
    - apply NW. now split.
    - destruct L as [-> L]. apply NW. split; auto. split; auto. split; [congruence|].
      destruct Kp' as [X|X]; auto. exfalso. apply V3 in X. congruence.
    - destruct L as (L1 & L2 & L3). apply WR; auto; [|now split].
      intros F. destruct Ku' as [X|X].
      + apply (Nat.lt_irrefl (m c)). destruct (rooted_le HK HR L1) as [Y|Y]; rewrite ?X in L3; rewrite L2, F in Y; [subst c|]; lia.
      + apply U3 in F. rewrite F in X. lia.
    - apply NW. split; auto.
    - apply NW. now split.
    - destruct L as [L ->]. apply NW. destruct (Nat.eqb_spec (jpar s u) largest) as [E|E].
      { lia. }
      split; auto. destruct (Nat.eqb_spec (jpar s u) (jpar s (jpar s u))) as [E2|E2].
      + symmetry in E2. apply V3 in E2. intros _. split; congruence.
      + split; auto. split; auto. intros F. apply E2. symmetry. apply V3. congruence.
    - destruct L as (L & -> & L2). apply NW. split; auto. split; auto. split; auto. split; [congruence|].
      destruct Kp' as [X|X]; auto. exfalso. apply V3 in X. congruence.
    - destruct L as (L0 & L1 & L2 & L3). apply WR; auto.
      + intros F. destruct Ku' as [X|X].
        * apply (Nat.lt_irrefl (m q)). destruct (rooted_le HK HR L1) as [Y|Y]; rewrite ?X in L3; rewrite L2, F in Y; [subst q|]; lia.
        * apply U3 in F. rewrite F in X. lia.
      + split; auto. destruct full0; auto. intros F. discriminate (proj2 L0 F).
    - apply NW. now split.
  Qed.

  Lemma jexec_inv par1 vs sched : NoDup vs -> forall s, jinv par1 vs s -> jinv par1 vs (jexec largest sched s).
  Proof. intros ND. unfold jexec. induction sched as [|t r IH]; simpl; intros s H; auto. apply IH. now apply jstep_inv. Qed.

  Lemma jstart_inv par1 vs pc : ranked n m par1 -> rooted n par1 R -> (forall u, In u vs -> u < n) ->
    match pc with A1 => True | B1 f => n <= largest /\ (full = true -> f = true) | _ => False end ->
    jinv par1 vs (jstart pc par1 vs).
  Proof.
    intros HK HR Hv Hpc. unfold jstart. repeat (split; [assumption|]). cbn. split; [|split; [|split]]; auto.
    - rewrite map_map. cbn. apply map_id.
    - intros u q Hin. apply in_map_iff in Hin. destruct Hin as (w & E & Hw). injection E as -> <-. split; auto. destruct pc; auto; contradiction.
  Qed.

  (* every busy step lowers the potential *)
  Definition pcw (pc : jpc) : nat :=
    match pc with A1 => 7 | A2 _ => 6 | A3 _ _ => 5 | A4 => 4 | A5 _ => 3 | A6 _ => 2 | A7 => 1
    | B1 _ => 7 | B2 _ _ => 6 | B3 _ _ => 5 | B4 _ _ => 4 | JDone _ => 0 end.
  Definition jpot (s : jstate) : nat := list_sum (map (fun c => 8 * m (jpar s (fst c)) + pcw (snd c)) (jthr s)).
  Lemma pot_ext (par par' : nat -> nat) (l : list (nat * jpc)) : (forall u pc, In (u, pc) l -> par u = par' u) ->
    list_sum (map (fun c => 8 * m (par (fst c)) + pcw (snd c)) l) = list_sum (map (fun c => 8 * m (par' (fst c)) + pcw (snd c)) l).
  Proof. intros H. f_equal. apply map_ext_in. intros [u pc] Hin. cbn [fst snd]. now rewrite (H u pc). Qed.
  Lemma pot_lset (par par' : nat -> nat) (l : list (nat * jpc)) t u pc pc' : NoDup (map fst l) -> nth_error l t = Some (u, pc) ->
    (forall v, v <> u -> par' v = par v) ->
    8 * m (par' u) + pcw pc' < 8 * m (par u) + pcw pc ->
    list_sum (map (fun c => 8 * m (par' (fst c)) + pcw (snd c)) (lset l t (u, pc'))) <
    list_sum (map (fun c => 8 * m (par (fst c)) + pcw (snd c)) l).
  Proof.
    intros ND E HO HL. revert t E. induction l as [|[a b] l IH]; intros t E; destruct t; try discriminate; inversion ND as [|? ? N1 N2]; subst.
    - injection E as -> ->. cbn [lset map fst snd list_sum fold_right].
      change (fold_right Nat.add 0) with list_sum.
      rewrite (@pot_ext par' par l). { lia. }
      intros v q Hq. apply HO. intros ->. apply N1. now apply (in_map fst) in Hq.
    - cbn [nth_error] in E. specialize (IH N2 t E). cbn [lset map fst snd list_sum fold_right].
      change (fold_right Nat.add 0) with list_sum.
      rewrite (HO a). { lia. } intros ->. apply N1. apply nth_error_In in E. now apply (in_map fst) in E.
  Qed.
  Lemma jpot_decr par1 vs s t u pc : NoDup vs -> jinv par1 vs s -> nth_error (jthr s) t = Some (u, pc) -> (forall x, pc <> JDone x) ->
    jpot (jstep largest s t) < jpot s.
  Proof.
    intros ND (HK & HR & HM & HT & HO & HD) Et Hpc. pose proof (nth_error_In _ _ Et) as Hin. destruct (HT u pc Hin) as [Hu L].
    assert (ND' : NoDup (map fst (jthr s))) by now rewrite HM.
    unfold jstep. rewrite Et. unfold jpot. destruct pc; cbn [jact jpar jthr]; try (apply pot_lset with (pc := _) (1 := ND') (2 := Et); [auto|]).
    all: try (cbn [pcw]; lia).
    - destruct (a =? jpar s b); cbn [pcw]; lia.
    - intros v Hv. now rewrite fset_other.
    - rewrite fset_same. cbn [pcw]. lia.
    - destruct (p =? largest); [cbn [pcw]; lia|]. destruct (p =? jpar s p); cbn [pcw]; lia.
    - intros v Hv. now rewrite fset_other.
    - rewrite fset_same. destruct full0; cbn [pcw]; lia.
    - destruct (Hpc x). reflexivity.
  Qed.
  (* some schedule finishes *)
  Definition jbusy (pc : jpc) : bool := match pc with JDone _ => false | _ => true end.
  Lemma jfinish_dec s : jfinished s \/ exists t u pc, nth_error (jthr s) t = Some (u, pc) /\ forall x, pc <> JDone x.
  Proof.
    unfold jfinished. induction (jthr s) as [|[u pc] l IH].
    - left. intros u pc [].
    - destruct (jbusy pc) eqn:E.
      + right. exists 0, u, pc. split; auto. intros x ->. discriminate.
      + destruct IH as [IH|(t & v & q & H1 & H2)].
        * left. intros v q [F|F]; [|now apply (IH v)]. injection F as <- <-. destruct pc; try discriminate. now exists x.
        * right. exists (S t), v, q. auto.
  Qed.
  Lemma jsome_schedule par1 vs s : NoDup vs -> jinv par1 vs s -> exists sched, jfinished (jexec largest sched s).
  Proof.
    intros ND. remember (jpot s) as k eqn:Hk. revert s Hk. induction k as [k IH] using lt_wf_ind. intros s -> HI.
    destruct (jfinish_dec s) as [F|(t & u & pc & Et & Hp)]; [now exists []|].
    assert (D : jpot (jstep largest s t) < jpot s) by (eapply jpot_decr; eauto).
    destruct (IH _ D _ eq_refl (@jstep_inv par1 vs s t ND HI)) as [r Hr]. now exists (t :: r).
  Qed.

  (* the outcome, whatever the schedule *)
  Lemma jumped par1 vs s : full = true -> jinv par1 vs s -> jfinished s ->
    forall u, In u vs -> jpar s u = R u /\ In (u, JDone (R u)) (jthr s).
  Proof.
    intros Hf (HK & HR & HM & HT & HO & HD) F u Hu. rewrite <- HM in Hu. apply in_map_iff in Hu. destruct Hu as ([v pc] & E & Hin). cbn in E. subst v.
    destruct (F _ _ Hin) as [x ->]. destruct (HT _ _ Hin) as [_ L]. destruct (L Hf) as [-> L2]. auto.
  Qed.
End Jumping.

Lemma store_prev_spec s prev v : NoDup (map fst (jthr s)) -> jfinished s ->
  (forall x, In (v, JDone x) (jthr s) -> store_prev s prev v = x) /\
  (~ In v (map fst (jthr s)) -> store_prev s prev v = prev v).
Proof.
  unfold store_prev, jfinished. generalize (jthr s) as l. intros l. revert prev. induction l as [|[u pc] l IH]; intros prev ND F.
  - split; [intros x []|reflexivity].
  - inversion ND as [|? ? N1 N2]; subst. destruct (F u pc) as [y ->]; [now left|]. cbn [fold_left fst snd].
    destruct (IH (fset prev u y) N2) as [I1 I2]; [intros; eapply F; right; eauto|]. split.
    + intros x [E|E]; [|now apply I1]. injection E as -> ->. rewrite I2; auto. apply fset_same.
    + intros Hn. cbn in Hn. rewrite I2 by tauto. apply fset_other. intros ->. tauto.
Qed.

(* ---------- concurrent write_min ---------- *)
Lemma min_writes_le calls par x : min_writes calls par x <= par x.
Proof.
  unfold min_writes. revert par. induction calls as [|[h l] c IH]; intros par; simpl; auto.
  etransitivity; [apply IH|]. destruct (Nat.ltb_spec l (par h)); auto. unfold fset. destruct (Nat.eqb_spec x h); subst; lia.
Qed.
Lemma min_writes_bound calls par h l : In (h, l) calls -> min_writes calls par h <= l.
Proof.
  unfold min_writes. revert par. induction calls as [|[h' l'] c IH]; intros par; simpl; [easy|]. intros [E|E]; [|now apply IH].
  injection E as -> ->. etransitivity; [apply min_writes_le|]. destruct (Nat.ltb_spec l (par h)); auto. now rewrite fset_same.
Qed.
Lemma min_writes_from calls par x : min_writes calls par x = par x \/ In (x, min_writes calls par x) calls.
Proof.
  unfold min_writes. revert par. induction calls as [|[h l] c IH]; intros par; simpl; auto.
  destruct (IH (if l <? par h then fset par h l else par)) as [E|E]; [|auto].
  rewrite E. destruct (Nat.ltb_spec l (par h)); auto. unfold fset. destruct (Nat.eqb_spec x h); subst; auto.
Qed.

Lemma filter_lt_len (f g : nat -> bool) l x : (forall v, In v l -> g v = true -> f v = true) -> In x l -> f x = true -> g x = false ->
  length (filter g l) < length (filter f l).
Proof.
  intros H Hin Hf Hg. induction l as [|a l IH]; [easy|]. simpl.
  assert (LE : length (filter g l) <= length (filter f l)).
  { clear IH Hin. induction l as [|b l IH]; simpl; auto.
    assert (IH' : length (filter g l) <= length (filter f l)) by (apply IH; intros v [E|E]; apply H; [now left|right; now right]).
    destruct (g b) eqn:Eg; [rewrite (H b) by (auto; right; now left)|destruct (f b)]; simpl; lia. }
  destruct Hin as [->|Hin].
  - rewrite Hf, Hg. simpl. lia.
  - assert (IH' : length (filter g l) < length (filter f l)) by (apply IH; auto; intros v E; apply H; now right).
    destruct (g a) eqn:Eg; [rewrite (H a) by (auto; now left)|destruct (f a)]; simpl; lia.
Qed.

Section SV.
  Variable n : nat.
  Variable E : list (nat * nat).
  Variable vs : list nat.
  Variable P0 : nat -> nat.
  Hypothesis Hvs : NoDup vs.
  Hypothesis Hvn : forall v, In v vs -> v < n.
  Hypothesis HE : forall a b, In (a, b) E -> In a vs /\ In b vs.

  (* connected by the edges of E and the initial labels *)
  Definition mrel : nat -> nat -> Prop := clos_refl_sym_trans nat (fun a b => In (a, b) E \/ (a < n /\ b = P0 a)).

  Record svinv (par prev : nat -> nat) : Prop := {
    i_eq : forall v, v < n -> par v = prev v;
    i_flat : forall v, v < n -> prev v < n /\ prev (prev v) = prev v;
    i_out : forall v, v < n -> ~ In v vs -> prev v = v;
    i_in : forall v, In v vs -> In (prev v) vs;
    i_con : forall v, v < n -> mrel v (prev v);
    i_coarse : forall v, v < n -> prev (P0 v) = prev v;
    i_le : (forall v, v < n -> P0 v <= v) -> forall v, v < n -> prev v <= v }.
  Definition roots (prev : nat -> nat) : nat := length (filter (fun v => prev v =? v) (seq 0 n)).

  Lemma hook_in prev h l : In (h, l) (flat_map (hook_call prev) E) ->
    exists a b, In (a, b) E /\ prev h = h /\ l < h /\ ((prev a = h /\ prev b = l) \/ (prev a = l /\ prev b = h)).
  Proof.
    intros H. apply in_flat_map in H. destruct H as ([a b] & Hin & H). unfold hook_call in H. cbn [fst snd] in H.
    destruct (Nat.eqb_spec (Nat.min (prev a) (prev b)) (Nat.max (prev a) (prev b))) as [E1|E1]; [easy|].
    destruct (Nat.eqb_spec (Nat.max (prev a) (prev b)) (prev (Nat.max (prev a) (prev b)))) as [E2|E2]; [|easy].
    destruct H as [H|[]]. injection H as H1 H2. exists a, b. split; auto. subst h l. split; [auto|]. split; [lia|]. lia.
  Qed.

  Section Round.
    Variables par prev : nat -> nat.
    Hypothesis HI : svinv par prev.
    Variable calls : list (nat * nat).
    Hypothesis HC : Permutation calls (flat_map (hook_call prev) E).
    Let par1 := min_writes calls par.
    Let m v := if prev v =? v then v else n.

    Lemma call_in h l : In (h, l) calls ->
      exists a b, In (a, b) E /\ prev h = h /\ l < h /\ h < n /\ In h vs /\ In l vs /\ prev l = l /\
        ((prev a = h /\ prev b = l) \/ (prev a = l /\ prev b = h)).
    Proof.
      intros H. apply (Permutation_in _ HC) in H. destruct (hook_in _ _ _ H) as (a & b & H1 & H2 & H3 & H4).
      destruct (HE _ _ H1) as [Ha Hb]. pose proof (i_in HI _ Ha). pose proof (i_in HI _ Hb).
      destruct (i_flat HI (Hvn _ Ha)). destruct (i_flat HI (Hvn _ Hb)).
      exists a, b. destruct H4 as [[<- <-]|[<- <-]]; repeat (split; auto).
    Qed.
    Lemma par1_cases v : v < n -> par1 v = prev v \/
      (prev v = v /\ par1 v < v /\ prev (par1 v) = par1 v /\ In v vs /\ In (par1 v) vs /\ mrel v (par1 v)).
    Proof.
      intros Hv. unfold par1. destruct (min_writes_from calls par v) as [H|H].
      - left. rewrite H. now apply i_eq.
      - right. destruct (call_in _ _ H) as (a & b & H1 & H2 & H3 & H4 & H5 & H6 & H7 & H8). repeat (split; [assumption|]).
        destruct (HE _ _ H1) as [Ha Hb]. pose proof (i_con HI (Hvn _ Ha)) as Ca. pose proof (i_con HI (Hvn _ Hb)) as Cb.
        assert (Cab : mrel a b) by (apply rst_step; auto).
        destruct H8 as [[Xa Xb]|[Xa Xb]]; rewrite Xa in Ca; rewrite Xb in Cb.
        + eapply rst_trans; [apply rst_sym; exact Ca|]. eapply rst_trans; [exact Cab|exact Cb].
        + eapply rst_trans; [apply rst_sym; exact Cb|]. eapply rst_trans; [apply rst_sym; exact Cab|exact Ca].
    Qed.
    Lemma par1_ranked : ranked n m par1.
    Proof.
      intros v Hv. destruct (i_flat HI Hv) as [F1 F2]. unfold m. destruct (par1_cases Hv) as [H|(H1 & H2 & H3 & H4 & H5 & _)].
      - rewrite H. split; auto. destruct (Nat.eqb_spec (prev v) v) as [X|X]; [now left|]. right. rewrite F2, Nat.eqb_refl. auto.
      - split; [now apply Hvn|]. right. rewrite H1, H3, !Nat.eqb_refl. auto.
    Qed.
    Let R := rootf m par1.
    Lemma R_rooted : rooted n par1 R.
    Proof. apply rootf_rooted, par1_ranked. Qed.
    (* what every pointer satisfies holds along the path to the root *)
    Lemma R_path (C : nat -> nat -> Prop) : (forall x, C x x) -> (forall x y z, C x y -> C y z -> C x z) ->
      (forall x, x < n -> C x (par1 x)) -> forall x, x < n -> C x (R x).
    Proof.
      intros C1 C2 C3 x Hx. unfold R, rootf. generalize (S (m x)) as k. intros k. 
      assert (G : Nat.iter k par1 x < n /\ C x (Nat.iter k par1 x)).
      { induction k as [|k [I1 I2]]; simpl; auto. split; [now apply par1_ranked|]. eapply C2; [exact I2|]. now apply C3. }
      tauto.
    Qed.
    Lemma R_out v : v < n -> ~ In v vs -> par1 v = v /\ R v = v.
    Proof.
      intros Hv Hn. assert (par1 v = v). { destruct (par1_cases Hv) as [H|(_ & _ & _ & H & _)]; [|tauto]. rewrite H. now apply (i_out HI). }
      split; auto. now apply (R_rooted Hv).
    Qed.
    Lemma R_prev v : v < n -> R (prev v) = R v.
    Proof.
      intros Hv. destruct (par1_cases Hv) as [H|(H & _)]; [|now rewrite H]. rewrite <- H. apply (R_rooted Hv).
    Qed.
    Lemma R_inv : (forall v, v < n -> P0 v < n) -> forall par' prev', (forall v, v < n -> par' v = R v) -> (forall v, v < n -> prev' v = R v) -> svinv par' prev'.
    Proof.
      intros HP par' prev' H1 H2. pose proof par1_ranked as RK. pose proof R_rooted as RR. split.
      - intros v Hv. now rewrite H1, H2.
      - intros v Hv. pose proof (proj1 (RR v Hv)) as B. rewrite !H2 by (rewrite ?H2; auto). split; auto. eapply rooted_idem; eauto.
      - intros v Hv Hn. rewrite H2 by auto. now apply R_out.
      - intros v Hv. rewrite H2 by auto. apply (R_path (fun a b => In a vs -> In b vs)); auto.
        intros x Hx Hix. destruct (par1_cases Hx) as [->|(_ & _ & _ & _ & X & _)]; auto. now apply (i_in HI).
      - intros v Hv. rewrite H2 by auto. apply (R_path (mrel)); auto.
        + intros. apply rst_refl.
        + intros. eapply rst_trans; eauto.
        + intros x Hx. destruct (par1_cases Hx) as [->|(_ & _ & _ & _ & _ & X)]; auto. now apply (i_con HI).
      - intros v Hv. rewrite !H2; auto. rewrite <- (R_prev (HP v Hv)), (i_coarse HI Hv). now apply R_prev.
      - intros HL v Hv. rewrite H2 by auto. apply (R_path (fun a b => b <= a)); auto; [intros; lia|].
        intros x Hx. destruct (par1_cases Hx) as [->|(_ & X & _)]; [|lia]. now apply (i_le HI).
    Qed.
    Lemma R_same : calls = [] -> forall v, v < n -> R v = prev v.
    Proof.
      intros Hc v Hv. assert (X : forall x, x < n -> par1 x = prev x). { intros x Hx. unfold par1. rewrite Hc. simpl. now apply (i_eq HI). }
      destruct (i_flat HI Hv) as [F1 F2]. destruct (R_rooted Hv) as (_ & A & _). rewrite <- A, (X v Hv). apply (R_rooted F1). now rewrite X.
    Qed.
    Lemma R_fewer : calls <> [] -> roots R < roots prev.
    Proof.
      intros Hc. assert (W : exists h l, In (h, l) calls).
      { clear -Hc. destruct calls as [|[h l] c]; [easy|]. exists h, l. now left. }
      destruct W as (h & l & Hin).
      destruct (call_in _ _ Hin) as (a & b & H1 & H2 & H3 & H4 & _).
      assert (X : par1 h <= l) by (apply min_writes_bound; exact Hin).
      unfold roots. apply (@filter_lt_len _ _ _ h).
      - intros v Hv Hr. apply in_seq in Hv. apply Nat.eqb_eq in Hr. apply Nat.eqb_eq.
        assert (Y : par1 v = v) by (apply (R_rooted (x := v)); auto; lia).
        destruct (par1_cases (v := v)) as [Z|(Z & _)]; [lia|congruence|auto].
      - apply in_seq. lia.
      - now apply Nat.eqb_eq.
      - apply Nat.eqb_neq. intros Y. apply (R_rooted H4) in Y. lia.
    Qed.
    Lemma R_jump sched : jfinished (jexec 0 sched (jstart A1 par1 vs)) ->
      let s := jexec 0 sched (jstart A1 par1 vs) in
      (forall v, v < n -> jpar s v = R v) /\ (forall v, v < n -> store_prev s prev v = R v).
    Proof.
      intros F s. assert (J : jinv 0 n m R true par1 vs s).
      { apply jexec_inv; auto. apply jstart_inv; auto using par1_ranked, R_rooted. }
      pose proof (jumped (eq_refl true) J F) as JJ. destruct J as (_ & _ & JM & _ & JO & _).
      assert (ND : NoDup (map fst (jthr s))) by (now rewrite JM).
      split; intros v Hv; (destruct (in_dec Nat.eq_dec v vs) as [Hin|Hn]; [destruct (JJ v Hin) as [A B]|destruct (R_out Hv Hn) as [A B]]).
      - auto.
      - rewrite JO by auto. congruence.
      - now apply (@store_prev_spec s prev v ND F).
      - rewrite (proj2 (@store_prev_spec s prev v ND F)) by (now rewrite JM). rewrite B. now apply (i_out HI).
    Qed.
    Lemma R_run : exists sched, jfinished (jexec 0 sched (jstart A1 par1 vs)).
    Proof. eapply (@jsome_schedule 0 n m R true par1 vs); auto. apply jstart_inv; auto using par1_ranked, R_rooted. Qed.
  End Round.

  Hypothesis H0 : forall v, v < n -> P0 v < n /\ P0 (P0 v) = P0 v.
  Hypothesis H0out : forall v, v < n -> ~ In v vs -> P0 v = v.
  Hypothesis H0in : forall v, In v vs -> In (P0 v) vs.

  Lemma roots_ext p q : (forall v, v < n -> p v = q v) -> roots p = roots q.
  Proof. intros H. unfold roots. f_equal. apply filter_ext_in. intros v Hv. apply in_seq in Hv. rewrite H; auto. lia. Qed.
  Lemma sv_round_ok par prev par' prev' ch : svinv par prev -> sv_round E vs par prev par' prev' ch ->
    svinv par' prev' /\ (ch = true -> roots prev' < roots prev) /\
    (ch = false -> forall a b, In (a, b) E -> prev' a = prev' b).
  Proof.
    intros HI HR. destruct HR as [calls sched HC s F]. destruct (R_jump HI HC sched F) as [J1 J2]. fold s in J1, J2.
    split; [|split].
    - eapply (R_inv HI HC); eauto. intros v Hv. now apply H0.
    - intros Hch. assert (calls <> []) by (destruct calls; congruence).
      rewrite (@roots_ext (store_prev s prev) _ J2). now apply R_fewer.
    - intros Hch. assert (Hc : calls = []) by (destruct calls; congruence). intros a b Hab. destruct (HE _ _ Hab) as [Ha Hb].
      rewrite !J2 by auto. rewrite !(R_same HI HC Hc) by auto.
      assert (X : hook_call prev (a, b) = []).
      { rewrite Hc in HC. apply Permutation_nil in HC. destruct (hook_call prev (a, b)) as [|c r] eqn:Eh; auto.
        assert (In c (flat_map (hook_call prev) E)) by (apply in_flat_map; exists (a, b); split; auto; rewrite Eh; now left).
        rewrite HC in H. destruct H. }
      unfold hook_call in X. cbn [fst snd] in X.
      destruct (Nat.eqb_spec (Nat.min (prev a) (prev b)) (Nat.max (prev a) (prev b))) as [E1|E1]; [lia|].
      destruct (Nat.eqb_spec (Nat.max (prev a) (prev b)) (prev (Nat.max (prev a) (prev b)))) as [E2|E2]; [easy|]. exfalso. apply E2.
      destruct (i_flat HI (Hvn _ Ha)). destruct (i_flat HI (Hvn _ Hb)). destruct (Nat.max_spec (prev a) (prev b)) as [[_ ->]|[_ ->]]; auto.
  Qed.
  Lemma sv_init : svinv P0 P0.
  Proof.
    split; auto; try (intros v Hv; now apply H0). intros v Hv. apply rst_step. auto.
  Qed.
  Lemma sv_loop_ok k par prev ch : sv_loop E vs P0 P0 k par prev ch ->
    svinv par prev /\ k <= S n /\ (ch = true -> roots prev + k <= n) /\
    (ch = false -> forall a b, In (a, b) E -> prev a = prev b).
  Proof.
    intros H. induction H as [|k par prev par' prev' ch H IH HR].
    - split; [apply sv_init|]. split; [lia|]. split; [|discriminate]. intros _. unfold roots. rewrite Nat.add_0_r.
      etransitivity; [apply filter_len_le|]. now rewrite seq_length.
    - destruct IH as (IH1 & IH2 & IH3 & _). specialize (IH3 eq_refl). destruct (sv_round_ok IH1 HR) as (A & B & C).
      split; [auto|]. split; [lia|]. split; [|auto]. intros Hc. specialize (B Hc). lia.
  Qed.
  Lemma sv_progress par prev : svinv par prev -> exists par' prev' ch, sv_round E vs par prev par' prev' ch.
  Proof.
    intros HI. destruct (R_run HI (Permutation_refl _)) as [sched F]. 
    do 3 eexists. eapply sv_round_intro; [apply Permutation_refl|exact F].
  Qed.
  Lemma sv_ends : exists k par prev, sv_loop E vs P0 P0 k par prev false.
  Proof.
    assert (G : forall d k par prev, sv_loop E vs P0 P0 k par prev true -> S (S n) <= d + k -> exists k par prev, sv_loop E vs P0 P0 k par prev false).
    { induction d; intros k par prev H Hd.
      - destruct (sv_loop_ok H) as (_ & X & _). lia.
      - destruct (sv_loop_ok H) as (X & _). destruct (sv_progress X) as (par' & prev' & ch & HR).
        pose proof (sv_next H HR) as H'. destruct ch; [|eauto]. apply (IHd _ _ _ H'). lia. }
    apply (G (S (S n)) 0 P0 P0); [constructor|lia].
  Qed.
  (* the labels are the connected components *)
  Lemma sv_labels k par prev u v : sv_loop E vs P0 P0 k par prev false -> u < n -> v < n ->
    (par u = par v <-> mrel u v).
  Proof.
    intros H Hu Hv. destruct (sv_loop_ok H) as (HI & _ & _ & HEq). specialize (HEq eq_refl). rewrite !(i_eq HI) by auto. split.
    - intros X. eapply rst_trans; [now apply (i_con HI)|]. rewrite X. apply rst_sym. now apply (i_con HI).
    - intros C. assert (G : forall a b, mrel a b -> (a < n <-> b < n) /\ (a < n -> prev a = prev b)).
      { clear u v Hu Hv C. intros a b C. induction C as [a b [Hab|[Ha ->]]|a|a b _ [I1 I2]|a b c _ [I1 I2] _ [J1 J2]].
        - destruct (HE _ _ Hab) as [Ha Hb]. apply Hvn in Ha, Hb. split; [tauto|]. intros _. now apply HEq.
        - destruct (H0 Ha). split; [tauto|]. intros _. symmetry. now apply (i_coarse HI).
        - tauto.
        - split; [tauto|]. intros Hb. symmetry. apply I2. tauto.
        - split; [tauto|]. intros Ha. rewrite I2, J2; tauto. }
      now apply G.
  Qed.
End SV.
