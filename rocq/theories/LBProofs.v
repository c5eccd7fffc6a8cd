(* Proofs for C90. *)
From Coq Require Import Permutation Relations.
From Verif Require Import Base ListUtil EMModel SVModel SVProofs UFSpec LTModel LTProofs LBModel LBSpec.
Unset Strict Implicit.

Lemma connected_mono E E' a b : incl E E' -> connected E a b -> connected E' a b.
Proof.
  intros H. unfold connected. induction 1 as [x y Hxy|x|x y Hxy IH|x y z Hxy IH1 Hyz IH2]; [apply rst_step|apply rst_refl|now apply rst_sym|eapply rst_trans; eauto].
  now apply H.
Qed.

Section Sound.
  Variables largest n : nat.
  Hypothesis Hn : n <= largest.
  Variable E0 : list (nat * nat).
  Notation C := (connected E0).
  Notation good := (good n E0).

  Lemma gl f v : good f -> v < n -> f v < n.
  Proof. intros H Hv. destruct (H v Hv). lia. Qed.
  Lemma good_step f u c : good f -> (u < n -> c <= u /\ C u c) -> good (fset f u c).
  Proof. intros Hf H v Hv. unfold fset. destruct (Nat.eqb_spec v u) as [->|]; auto. Qed.

  (* ---------- pointer jumping, tasks may share a vertex ---------- *)
  Definition below (u x : nat) : Prop := x <= u /\ C u x.
  Definition jgood (u : nat) (pc : jpc) : Prop :=
    u < n /\ match pc with A3 _ b => below u b | A5 b => below u b | A6 c => below u c | B2 _ p => below u p | B3 _ p => below u p | B4 _ q => below u q | _ => True end.
  Lemma below_par f u p : good f -> u < n -> below u p -> below u (f p).
  Proof. intros Hf Hu [Hp Cp]. destruct (Hf p) as [H1 H2]; [lia|]. split; [lia|]. eapply C_trans; eauto. Qed.
  Lemma below_refl u : below u u. Proof. split; auto. apply C_refl. Qed.
  Lemma jstep_good s t : good (jpar s) -> (forall u pc, In (u, pc) (jthr s) -> jgood u pc) ->
    good (jpar (jstep largest s t)) /\ (forall u pc, In (u, pc) (jthr (jstep largest s t)) -> jgood u pc).
  Proof.
    intros Hg Ht. unfold jstep. destruct (nth_error (jthr s) t) as [[u pc]|] eqn:Et; [|auto].
    destruct (Ht u pc (nth_error_In _ _ Et)) as [Hu Hpc].
    assert (G : forall w pc', jact largest (jpar s) u pc = (w, pc') -> (match w with Some c => below u c | None => True end) /\ jgood u pc').
    { intros w pc'. unfold jgood. destruct pc; simpl; intros Ea; inversion Ea; subst; clear Ea; auto; try (split; [exact I|]);
        repeat match goal with |- context [if ?b then _ else _] => destruct b end; auto using below_par, below_refl. }
    destruct (jact largest (jpar s) u pc) as [w pc'] eqn:Ea. destruct (G w pc' eq_refl) as [Gw Gp]. cbn [jpar jthr]. split.
    - destruct w as [c|]; auto. apply good_step; auto.
    - intros v q Hin. apply In_lset in Hin as [Hin|Hin]; [inversion Hin; subst; auto|auto].
  Qed.
  Lemma jexec_good sched : forall s, good (jpar s) -> (forall u pc, In (u, pc) (jthr s) -> jgood u pc) -> good (jpar (jexec largest sched s)).
  Proof. unfold jexec. induction sched as [|t r IH]; intros s Hg Ht; simpl; auto. destruct (@jstep_good s t Hg Ht). now apply IH. Qed.
  Lemma jump_good pc par vs sched : good par -> (forall u, In u vs -> u < n) -> match pc with A1 => True | B1 _ => True | _ => False end ->
    good (jpar (jexec largest sched (jstart pc par vs))).
  Proof.
    intros Hg Hv Hpc. apply jexec_good; auto. intros u q Hin. simpl in Hin. apply in_map_iff in Hin as (x & Ex & Hx). inversion Ex; subst.
    split; auto. destruct q; auto; contradiction.
  Qed.

  (* ---------- update ---------- *)
  Lemma update_good o P msgs x : good P -> good msgs -> x < n -> below x (update_cell largest o P msgs x).
  Proof.
    intros HP HM Hx. destruct (HP x Hx), (HM x Hx). pose proof (gl HP Hx). pose proof (gl HM Hx). unfold update_cell, below.
    rewrite (@min_min largest n Hn) by auto. destruct o; [|destruct (x =? P x)]; auto; destruct (Nat.min_spec (P x) (msgs x)) as [[_ ->]|[_ ->]]; auto.
  Qed.
  Definition ugood (pc : upc) : Prop :=
    match pc with U1 u v => u < n /\ v < n | U2 u v p => u < n /\ v < n /\ p < n | UT xs => forall x, In x xs -> x < n | UW x xs => x < n /\ forall y, In y xs -> y < n end.
  Lemma ustep_good o msgs s t : good msgs -> good (uP s) -> (forall pc, In pc (uthr s) -> ugood pc) ->
    good (uP (ustep largest o msgs s t)) /\ (forall pc, In pc (uthr (ustep largest o msgs s t)) -> ugood pc).
  Proof.
    intros HM HP HT. unfold ustep. destruct (nth_error (uthr s) t) as [pc|] eqn:Et; [|auto]. specialize (HT pc (nth_error_In _ _ Et)) as Hpc.
    assert (G : forall q, ugood q -> forall p, In p (lset (uthr s) t q) -> ugood p) by (intros q Hq p Hp; apply In_lset in Hp as [->|Hp]; auto).
    destruct pc as [u v|u v p|[|x xs]|x xs]; cbn [ugood] in Hpc; auto.
    - split; auto. cbn [uthr]. apply G. cbn. destruct Hpc. repeat split; auto. now apply gl.
    - split; auto. cbn [uthr]. apply G. cbn. destruct Hpc as (Hu & Hv & Hp). intros y [<-|[<-|[<-|[<-|[]]]]]; auto. now apply gl.
    - destruct (uF s x); (split; [auto|]); cbn [uthr]; apply G; cbn; [intros y Hy; apply Hpc; now right|split; [apply Hpc; now left|intros y Hy; apply Hpc; now right]].
    - split; cbn [uP uthr]; [|apply G; cbn; tauto]. apply good_step; auto. intros Hx. apply update_good; auto.
  Qed.
  Lemma uexec_good o msgs sched : good msgs -> forall s, good (uP s) -> (forall pc, In pc (uthr s) -> ugood pc) -> good (uP (uexec largest o msgs sched s)).
  Proof. intros HM. unfold uexec. induction sched as [|t r IH]; intros s Hg Ht; simpl; auto. destruct (@ustep_good o msgs s t HM Hg Ht). now apply IH. Qed.

  (* ---------- rounds, loop, batch ---------- *)
  Definition edges_ok (E : list (nat * nat)) : Prop := forall a b, In (a, b) E -> a < n /\ b < n /\ C a b.
  Definition sgood (s : lbst) : Prop := good (bP s) /\ good (bM s).
  Lemma calls_all c P E calls : good P -> edges_ok E -> Permutation calls (flat_map (connect_calls largest c P) E) -> Forall (gcall n E0) calls.
  Proof.
    intros HP HE Hp. apply Forall_forall. intros x Hx. apply (Permutation_in _ Hp), in_flat_map in Hx as ([a b] & Hab & Hx).
    destruct (HE a b Hab) as (Ha & Hb & Hc). pose proof (@calls_good largest n Hn E0 c P a b HP Ha Hb Hc) as G. rewrite Forall_forall in G. auto.
  Qed.
  Lemma endpoints_in E x : In x (endpoints E) <-> exists e, In e E /\ (x = fst e \/ x = snd e).
  Proof.
    unfold endpoints. rewrite nodup_In, in_flat_map. split; intros (e & He & Hx); exists e; (split; [auto|]); simpl in *; intuition.
  Qed.
  Lemma endpoints_lt E x : edges_ok E -> In x (endpoints E) -> x < n.
  Proof. intros HE Hx. apply endpoints_in in Hx as ([a b] & Hab & Hx). destruct (HE a b Hab) as (Ha & Hb & _). simpl in Hx. destruct Hx; subst; auto. Qed.
  Lemma lb_round_good c o full alter E s E' s' ch : edges_ok E -> sgood s -> lb_round largest c o full alter E s E' s' ch -> edges_ok E' /\ sgood s'.
  Proof.
    intros HE [HP HM] HR. destruct HR as [calls msgs ch usched sched Hp Hw us Hus F1 vs js Hjs F2].
    destruct (@writes_ok largest n Hn E0 calls (calls_all HP HE Hp) _ _ _ _ HM Hw) as (GM & _).
    assert (GU : good (uP us)).
    { apply uexec_good; auto. intros pc Hin. simpl in Hin. apply in_map_iff in Hin as ([a b] & <- & Hab). destruct (HE a b Hab) as (? & ? & _). cbn. auto. }
    assert (GJ : good (jpar js)).
    { apply jump_good; auto. intros u Hu. unfold vs, shortcut_cells in Hu. apply filter_In in Hu as [Hu _]. now apply endpoints_lt with E. }
    split; [|split; cbn [bP bM]; auto].
    - destruct alter; [|exact HE]. intros a b Hin. unfold alter_edges in Hin. apply filter_In in Hin as [Hin _]. apply in_map_iff in Hin as ([u v] & Ex & Huv). inversion Ex; subst. cbn [fst snd].
      destruct (HE u v Huv) as (Hu & Hv & Huc). destruct (GJ u Hu) as [G1 G2], (GJ v Hv) as [G3 G4]. split; [lia|]. split; [lia|]. apply (C_trans (C_sym G2)). apply (C_trans Huc). exact G4.
    - intros x Hx. unfold reset_msgs. destruct (existsb (Nat.eqb x) vs); auto.
  Qed.
  Lemma lb_loop_good c o full alter E s k E' s' ch : edges_ok E -> sgood s -> lb_loop largest c o full alter E s k E' s' ch -> edges_ok E' /\ sgood s'.
  Proof. intros HE Hs. induction 1 as [|k E1 s1 E2 s2 ch HL IH HR]; auto. destruct IH as [A B]. eapply lb_round_good; eauto. Qed.
  Lemma lb_batch_good c o full alter ups s s' : (forall u v b, In (u, v, b) ups -> u < n /\ v < n) -> (forall u v, In (u, v, true) ups -> In (u, v) E0) ->
    sgood s -> lb_batch largest c o full alter ups s s' -> sgood s'.
  Proof.
    intros Hb HE Hs HB. destruct HB as [re k r E s1 sched Hr HL js Hjs]. unfold reorder_updates in Hr. inversion Hr; subst re k; clear Hr.
    rewrite firstn_app, Nat.sub_diag, firstn_all, firstn_O, app_nil_r in HL.
    destruct (@lb_loop_good c o full alter (map fst (filter snd ups)) s r E s1 false) as [_ [GP GM]]; auto.
    { intros u v Huv. apply in_map_iff in Huv as ([[x y] b] & Ex & Hin). cbn in Ex. inversion Ex; subst. apply filter_In in Hin as [Hin Eb]. cbn in Eb. subst b.
      destruct (Hb u v true Hin). repeat split; auto. apply rst_step. auto. }
    split; cbn [bP bM]; auto. apply jump_good; auto. intros u Hu. apply in_flat_map in Hu as ([[x y] b] & Hin & Hu).
    assert (Hin' : In (x, y, b) ups) by (rewrite <- (firstn_skipn (length ups - length (filter snd ups)) ups); apply in_or_app; auto).
    destruct (Hb x y b Hin'). cbn in Hu. destruct Hu as [<-|[<-|[]]]; auto.
  Qed.
End Sound.

(* ---------- an update phase can always be finished ---------- *)
Definition uw (pc : upc) : nat := match pc with U1 _ _ => 10 | U2 _ _ _ => 9 | UT xs => 2 * length xs | UW _ xs => 2 * length xs + 1 end.
Lemma sum_lset (l : list upc) t a b : nth_error l t = Some a -> list_sum (map uw (lset l t b)) + uw a = list_sum (map uw l) + uw b.
Proof.
  revert t. induction l as [|x l IH]; intros [|t] H; cbn in *; try discriminate.
  - inversion H; subst. lia.
  - specialize (IH t H). unfold list_sum in *. lia.
Qed.
Lemma ufin_dec s : ufinished s \/ exists t pc, nth_error (uthr s) t = Some pc /\ pc <> UT [].
Proof.
  unfold ufinished. induction (uthr s) as [|x l IH]; [left; intros ? []|].
  assert (D : x = UT [] \/ x <> UT []) by (destruct x as [| |[|]|]; auto; right; discriminate). destruct D as [->|D]; [|right; exists 0, x; auto].
  destruct IH as [IH|(t & pc & Ht & Hp)]; [left; intros pc [<-|Hin]; auto|right; exists (S t), pc; auto].
Qed.
Lemma usome_schedule largest o msgs : forall k s, list_sum (map uw (uthr s)) <= k -> exists sched, ufinished (uexec largest o msgs sched s).
Proof.
  induction k as [|k IH]; intros s Hk; (destruct (ufin_dec s) as [Hf|(t & pc & Ht & Hp)]; [exists []; exact Hf|]).
  - exfalso. pose proof (sum_lset (U1 0 0) Ht) as X. assert (uw pc <> 0) by (destruct pc as [| |[|]|]; cbn; try lia; congruence). assert (uw pc <= list_sum (map uw (uthr s))).
    { clear - Ht. revert t Ht. induction (uthr s) as [|x l IH]; intros [|t] H; cbn in *; try discriminate; [inversion H; lia|specialize (IH t H); unfold list_sum in *; lia]. }
    lia.
  - assert (L : list_sum (map uw (uthr (ustep largest o msgs s t))) < list_sum (map uw (uthr s))).
    { unfold ustep. rewrite Ht. destruct pc as [u v|u v p|[|x xs]|x xs]; try congruence; [| |destruct (uF s x)|]; cbn [uthr].
      - pose proof (sum_lset (U2 u v (uP s u)) Ht) as X. cbn [uw length] in X. lia.
      - pose proof (sum_lset (UT [u; v; p; uP s v]) Ht) as X. cbn [uw length] in X. lia.
      - pose proof (sum_lset (UT xs) Ht) as X. cbn [uw length] in X. lia.
      - pose proof (sum_lset (UW x xs) Ht) as X. cbn [uw length] in X. lia.
      - pose proof (sum_lset (UT xs) Ht) as X. cbn [uw length] in X. lia. }
    destruct (IH (ustep largest o msgs s t)) as [sched F]; [lia|]. exists (t :: sched). exact F.
Qed.

Lemma inserted_in bs u v : In (u, v) (inserted bs) <-> exists b, In b bs /\ In (u, v, true) b.
Proof.
  unfold inserted. rewrite in_map_iff. split.
  - intros ([[x y] t] & Ex & Hin). cbn in Ex. inversion Ex; subst. apply filter_In in Hin as [Hin Et]. cbn in Et. subst t. apply in_concat in Hin as (b & Hb & Hin). eauto.
  - intros (b & Hb & Hin). exists (u, v, true). split; auto. apply filter_In. split; auto. apply in_concat. eauto.
Qed.
Lemma good_mono n E E' f : incl E E' -> good n E f -> good n E' f.
Proof. intros H G v Hv. destruct (G v Hv). split; auto. now apply connected_mono with E. Qed.
Theorem batches_good largest n c o full alter bs s : n <= largest -> (forall b u v t, In b bs -> In (u, v, t) b -> u < n /\ v < n) ->
  lb_batches largest c o full alter bs s -> good n (inserted bs) (bP s) /\ good n (inserted bs) (bM s).
Proof.
  intros Hn Hb HB. induction HB as [|bs b s s' HB IH HS].
  - split; intros v Hv; cbn; split; auto; apply rst_refl.
  - destruct IH as [GP GM]. { intros b' u v t Hin. apply Hb. apply in_or_app; auto. }
    assert (Hi : incl (inserted bs) (inserted (bs ++ [b]))) by (intros [u v] Hin; apply inserted_in in Hin as (x & Hx & Hin); apply inserted_in; exists x; split; auto; apply in_or_app; auto).
    apply (@lb_batch_good largest n Hn (inserted (bs ++ [b])) c o full alter b s s'); auto.
    + intros u v t Hin. apply (Hb b u v t); auto. apply in_or_app. right. now left.
    + intros u v Hin. apply inserted_in. exists b. split; auto. apply in_or_app. right. now left.
    + split; eapply good_mono; eauto.
Qed.
Lemma root_conn n E P v r : good n E P -> v < n -> root_of P v r -> connected E v r.
Proof.
  intros HG Hv (k & <- & _). assert (X : Nat.iter k P v < n /\ connected E v (Nat.iter k P v)); [|apply X].
  induction k as [|k [A B]]; cbn [Nat.iter nat_rect]; [split; auto; apply rst_refl|]. change (nat_rect _ v (fun _ => P) k) with (Nat.iter k P v).
  destruct (HG _ A). split; [lia|]. eapply rst_trans; eauto.
Qed.
Lemma root_exists n E P v : good n E P -> v < n -> exists r, r <= v /\ root_of P v r.
Proof.
  intros HG. induction v as [v IH] using lt_wf_ind. intros Hv. destruct (HG v Hv) as [Hle _]. destruct (Nat.eq_dec (P v) v) as [Er|Er].
  - exists v. split; auto. exists 0. auto.
  - destruct (IH (P v)) as (r & Hr & k & Hk & Hf); [lia|lia|]. exists r. split; [lia|]. exists (S k). split; auto. rewrite <- Hk. clear. induction k; cbn; auto.
Qed.
