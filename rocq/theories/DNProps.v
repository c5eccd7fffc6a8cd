(* Theorems for C58: approximate densest subgraph. *)
From Coq Require Import Permutation.
From Verif Require Import Base ListUtil VSModel EMModel BKModel BKSpec BKProofs KCModel KCSpec KCProofs KCProps DNModel DNSpec DNProofs DNGreedy.

Section Main.
  Variable n : nat.
  Variable outn : nat -> list nat.
  Hypothesis Hsym : symmetric n outn.
  Variable null : nat.
  Hypothesis Hdeg : forall v, v < n -> length (outn v) < null.
  Variables p q : nat.
  Hypothesis Hq : 0 < q.
  Lemma loop_inv k rem D best : dn_loop n outn null p q k rem D best -> dninv n outn p q k rem D best.
  Proof.
    intros H. induction H as [|k rem D best res H IH Hne cur kept HC]; [now apply dninv_start|]. now apply dninv_round.
  Qed.
  Lemma loop_ends d : forall k rem D best, length rem <= d -> dn_loop n outn null p q k rem D best -> exists best', dn_returns n outn null p q best'.
  Proof.
    induction d; intros k rem D best Hd H.
    - destruct rem; [|simpl in Hd; lia]. exists best. red. eauto.
    - destruct rem as [|x rem]; [exists best; red; eauto|]. assert (Hne : x :: rem <> []) by discriminate. set (l := x :: rem) in *.
      destruct (@counts_exist n outn (fun v => existsb (Nat.eqb v) (filter (fun v => negb (dn_drop p q l D v)) l)) (filter (dn_drop p q l D) l)) as [res HC].
      pose proof (dn_round H Hne HC) as H'. refine (IHd _ _ _ _ _ H').
      destruct (some_small D Hne) as (v & Hv & Hs). pose proof (filter_parts (dn_drop p q l D) l) as X.
      assert (Y : In v (filter (dn_drop p q l D) l)). { apply filter_In. split; auto. unfold dn_drop. apply Nat.leb_le. nia. }
      destruct (filter (dn_drop p q l D) l) as [|z l0]; [destruct Y|]. cbn [length] in X. clearbody l. lia.
  Qed.
End Main.

(* C58: the peeling algorithm with epsilon = p / q (exact arithmetic) on a symmetric graph with at
   least one vertex, whichever traversal counts the removed edges and in whatever order they are
   subtracted.  There is a result, after at most n rounds, and the next round can always be run;
   the result is the density of some set of vertices and no set is denser than 2 (1 + epsilon)
   times the result. *)
Theorem C58_peeling : forall n outn null p q, 0 < n -> symmetric n outn -> (forall v, v < n -> length (outn v) < null) -> 0 < q ->
  (exists best, dn_returns n outn null p q best) /\
  (forall k rem D best, dn_loop n outn null p q k rem D best -> k <= n /\
     exists res, ngh_counts n outn (fun v => existsb (Nat.eqb v) (filter (fun v => negb (dn_drop p q rem D v)) rem)) (filter (dn_drop p q rem D) rem) res) /\
  (forall best, dn_returns n outn null p q best ->
     0 < snd best /\ (exists S, vertex_set n S /\ is_density best outn S) /\
     forall S, vertex_set n S -> at_least best outn S (2 * (q + p)) q).
Proof.
  intros n outn null p q Hn Hsym Hdeg Hq. split; [|split].
  - eapply loop_ends; eauto. constructor.
  - intros k rem D best H. split; [pose proof (d_k (loop_inv Hsym Hdeg Hq H)); lia|apply counts_exist].
  - intros best (k & D & H). pose proof (loop_inv Hsym Hdeg Hq H) as I. split; [apply (d_pos I)|]. split.
    + destruct (d_den I) as [[-> _]|E]; auto. exfalso. inversion H as [E1|]. destruct n; [lia|discriminate].
    + intros S HS. unfold at_least. rewrite <- Nat.mul_assoc. apply (reduce_balanced Hsym (2 * (q + p) * fst best)); auto.
      intros T HT HB. destruct (d_bal I HT HB) as [X|X].
      * destruct HT as (_ & Hne & _). destruct T as [|x T]; [congruence|]. destruct (X x (or_introl eq_refl)).
      * unfold at_least in X. lia.
Qed.
Print Assumptions C58_peeling.

(* -- Charikar's greedy algorithm ------------------------------------------------------------- *)
Section Greedy.
  Variable n : nat.
  Variable outn : nat -> list nat.
  Hypothesis Hn : 0 < n.
  Hypothesis Hsym : symmetric n outn.
  Hypothesis Hsimple : simple n outn.
  Variables o null : nat.
  Hypothesis Ho : 0 < o.
  Hypothesis Hdeg : forall v, v < n -> length (outn v) < null.
  Variable order : list nat.
  Hypothesis HO : degeneracy_returns n outn o null order.
  Variable a : nat -> nat.
  Hypothesis Ha : dens_above n outn order a.
  Let r := max_frac (map (fun i => (scanned n a i, n - i)) (seq 0 n)).
  Lemma ord_perm : Permutation order (seq 0 n).
  Proof. destruct (C39_degeneracy_order Ho Hsym Hdeg) as [_ X]. now apply X. Qed.
  Lemma r_spec : (exists i, i < n /\ r = (inside outn (skipn (S i) order), n - i)) /\
    forall i, i < n -> inside outn (skipn (S i) order) * snd r <= fst r * (n - i).
  Proof.
    pose proof ord_perm as HP. destruct (@max_frac_spec (map (fun i => (scanned n a i, n - i)) (seq 0 n))) as [A B].
    - destruct n; [lia|discriminate].
    - intros c Hc. apply in_map_iff in Hc as (i & <- & Hi). apply in_seq in Hi. simpl. lia.
    - fold r in A, B. split.
      + apply in_map_iff in A as (i & E & Hi). apply in_seq in Hi. exists i. split; [lia|]. rewrite <- E. f_equal. apply (scanned_spec Hsym Hsimple HP Ha). lia.
      + intros i Hi. rewrite <- (scanned_spec Hsym Hsimple HP Ha Hi). apply (B (scanned n a i, n - i)). apply in_map_iff. exists i. split; auto. apply in_seq. lia.
  Qed.
  Lemma r_upper : exists S, vertex_set n S /\ fst r * length S <= inside outn S * snd r.
  Proof.
    pose proof ord_perm as HP. destruct r_spec as [(i & Hi & E) _]. rewrite E. cbn [fst snd].
    destruct (skipn (S i) order) as [|x l] eqn:Es.
    - exists [0]. split; [|change (inside outn []) with 0; apply Nat.le_0_l]. split; [repeat constructor; auto|]. split; [discriminate|]. intros v [<-|[]]. auto.
    - exists (x :: l). rewrite <- Es. split; [split; [apply (suffix_nd _ HP)|split; [rewrite Es; discriminate|intros v; apply (suffix_lt _ HP)]]|].
      apply Nat.mul_le_mono_l. rewrite skipn_length, (ord_len _ HP). lia.
  Qed.
  Lemma r_lower T : vertex_set n T -> at_least (fst r + 2 * snd r, snd r) outn T 2 1.
  Proof.
    pose proof ord_perm as HP. intros HT. unfold at_least. cbn [fst snd]. rewrite Nat.mul_1_r.
    revert T HT. apply (reduce_balanced Hsym). intros T (ND & Hne & Hlt) HB.
    (* the smallest degree within T: T is a core *)
    destruct (list_min (dg outn T) Hne) as (x & Hx & Hmin). set (k := dg outn T x) in *.
    assert (HcT : core n outn k (fun v => mem v T)).
    { intros v Hv. apply mem_In in Hv. split; [auto|]. apply (Hmin v Hv). }
    assert (HI : inside outn T <= 2 * k * length T) by (apply HB; auto).
    (* the coreness of every vertex *)
    destruct (C39_kcore Ho Hsym Hdeg) as ((D & HD) & _ & HC). specialize (HC D HD).
    destruct (C39_degeneracy_order Ho Hsym Hdeg) as [_ HX]. destruct (HX order HO) as (_ & Hlater & Hinc).
    pose proof (ord_len _ HP) as HL.
    (* the first vertex of the order with coreness at least k *)
    assert (Hex : exists i, i < n /\ k <= D (nth i order 0) /\ forall j, j < i -> D (nth j order 0) < k).
    { assert (HxD : k <= D x). { apply (HC x (Hlt x Hx)) with (S := fun v => mem v T); auto. now apply mem_In. }
      assert (Hxo : In x order) by (apply (ord_in _ HP); auto). apply (In_nth _ _ 0) in Hxo as (j0 & Hj0 & Ej0). rewrite HL in Hj0.
      rewrite <- Ej0 in HxD. clear -HxD Hj0. revert HxD Hj0. induction j0 as [j0 IH] using lt_wf_ind. intros HxD Hj0.
      destruct (forallb (fun j => D (nth j order 0) <? k) (seq 0 j0)) eqn:E.
      - exists j0. split; auto. split; auto. intros j Hj. rewrite forallb_forall in E. apply Nat.ltb_lt, E, in_seq. lia.
      - destruct (some_false _ _ E) as (j & Hj & Hk). apply in_seq in Hj. apply Nat.ltb_ge in Hk. apply (IH j); auto; lia. }
    destruct Hex as (i & Hi & Hk & Hbef). set (y := nth i order 0) in *. set (c := D y) in *. set (W := skipn i order).
    assert (EW : W = y :: skipn (S i) order) by apply (suffix_cons HP Hi).
    assert (Ey : order = firstn i order ++ y :: skipn (S i) order) by (rewrite <- EW; symmetry; apply firstn_skipn).
    assert (Hy : y < n) by (apply (suffix_lt _ HP i); fold W; rewrite EW; now left).
    assert (HW : forall w, w < n -> (In w W <-> c <= D w)).
    { intros w Hw. split.
      - intros Hin. rewrite EW in Hin. destruct Hin as [<-|Hin]; auto. apply (Hinc _ _ _ w c (D w) Ey Hin); [apply (HC y Hy)|apply (HC w Hw)].
      - intros Hc. apply (ord_in _ HP) in Hw. apply (In_nth _ _ 0) in Hw as (j & Hj & Ej). apply (in_suffix HP); [lia|]. exists j. split; auto.
        split; [|lia]. destruct (Nat.le_gt_cases i j); auto. specialize (Hbef j ltac:(lia)). rewrite Ej in Hbef. lia. }
    assert (HcW : forall w, In w W -> c <= dg outn W w).
    { intros w Hw. assert (Hwn : w < n) by apply (suffix_lt _ HP _ _ Hw). apply HW in Hw as Hcw; auto.
      destruct (HC w Hwn) as [(S & HS & HSw) _]. destruct (HS w HSw) as [_ Hd]. transitivity (D w); auto. etransitivity; [exact Hd|].
      apply filter_le_imp. intros v Hv HSv. apply mem_In, HW; [now apply (HS v)|]. transitivity (D w); auto.
      apply (HC v (proj1 (HS v HSv))) with (S := S); auto. }
    assert (HiW : c * length W <= inside outn W) by (rewrite inside_dg; now apply sum_map_ge).
    assert (HlW : length W = n - i) by (unfold W; rewrite skipn_length; lia).
    assert (HcL : c <= length W).
    { etransitivity; [apply (HcW y); rewrite EW; now left|]. destruct (Hsimple Hy) as [NDy _]. unfold dg.
      apply NoDup_incl_length; [now apply NoDup_filter|]. intros w Hw. apply filter_In in Hw. now apply mem_In. }
    assert (Hsplit : inside outn W <= inside outn (skipn (S i) order) + 2 * c).
    { pose proof (suffix_nd _ HP i) as N. pose proof (fun v => @suffix_lt n order HP i v) as L. fold W in N, L. rewrite EW in *.
      rewrite (inside_cons Hsym N L). inversion N as [|? ? N1 N2]; subst. rewrite dg_cons by auto.
      destruct (Hsimple Hy) as [_ Hl]. apply (count_occ_not_In Nat.eq_dec) in Hl. rewrite Hl.
      assert (dg outn (skipn (S i) order) y <= c) by (apply (Hlater _ _ _ c Ey), (HC y Hy)). lia. }
    destruct r_spec as [(i0 & Hi0 & Er) HR]. specialize (HR i Hi). rewrite <- HlW in HR.
    assert (Hpos : 0 < snd r) by (rewrite Er; simpl; lia).
    assert (Hc2 : c * snd r <= fst r + 2 * snd r).
    { assert (LW : 0 < length W) by lia. apply (Nat.mul_le_mono_pos_r _ _ (length W)); auto. nia. }
    assert (inside outn T * snd r <= 2 * k * length T * snd r) by (apply Nat.mul_le_mono_r; auto).
    assert (2 * length T * (k * snd r) <= 2 * length T * (fst r + 2 * snd r)) by (apply Nat.mul_le_mono_l; nia). nia.
  Qed.
End Greedy.

(* Charikar's algorithm on a simple symmetric graph: the check of the edge total always passes; the
   result is at most the density of some set of vertices, and no set has a density above
   2 (result + 2). *)
Theorem C58_charikar : forall n outn o null, 0 < n -> 0 < o -> symmetric n outn -> simple n outn -> (forall v, v < n -> length (outn v) < null) ->
  (exists r, charikar_returns n outn null o r) /\
  (forall r, charikar_returns n outn null o r -> exists d, r = Some d /\ 0 < snd d /\
     (exists S, vertex_set n S /\ fst d * length S <= inside outn S * snd d) /\
     forall S, vertex_set n S -> at_least (fst d + 2 * snd d, snd d) outn S 2 1).
Proof.
  intros n outn o null Hn Ho Hsym Hsimple Hdeg. split.
  - destruct (C39_degeneracy_order Ho Hsym Hdeg) as [[order HO] _]. destruct (above_exists n outn order) as [a Ha]. eexists. exists order, a. auto.
  - intros r (order & a & HO & Ha & ->). unfold greedy_result.
    rewrite (total_spec Hsym Hsimple (ord_perm Hsym Ho Hdeg HO) Ha). fold (num_edges n outn). rewrite Nat.eqb_refl.
    eexists. split; [reflexivity|]. split; [|split].
    + destruct (r_spec Hn Hsym Hsimple Ho Hdeg HO Ha) as [(i & Hi & E) _]. rewrite E. simpl. lia.
    + exact (r_upper Hn Hsym Hsimple Ho Hdeg HO Ha).
    + exact (r_lower Hn Hsym Hsimple Ho Hdeg HO Ha).
Qed.
Print Assumptions C58_charikar.

(* The scan is exclusive and the divisor is that of the set with one vertex more, so the result is
   not a 2-approximation: on a single edge (density 1) it is 0 and on a triangle (density 2) it
   is 2/3. *)
Definition clique_out (n v : nat) : list nat := filter (fun w => negb (w =? v)) (seq 0 n).
Lemma clique_ok n : symmetric n (clique_out n) /\ simple n (clique_out n) /\ forall v, v < n -> length (clique_out n v) < S n.
Proof.
  assert (HI : forall u w, In w (clique_out n u) <-> w < n /\ w <> u).
  { intros u w. unfold clique_out. rewrite filter_In, in_seq, negb_true_iff, Nat.eqb_neq. split; lia. }
  assert (HN : forall u, NoDup (clique_out n u)) by (intros u; apply NoDup_filter, seq_NoDup).
  split; [split|split].
  - intros u v _ H. now apply HI in H.
  - intros u v Hu Hv. destruct (Nat.eq_dec u v) as [->|Hne]; auto.
    assert (X : forall x y, In y (clique_out n x) -> count_occ Nat.eq_dec (clique_out n x) y = 1).
    { intros x y H. apply NoDup_count_occ'; auto. }
    rewrite !X; auto; apply HI; auto.
  - intros u Hu. split; auto. intros H. apply HI in H. lia.
  - intros v _. unfold clique_out. pose proof (filter_len_le (fun w => negb (w =? v)) (seq 0 n)) as H. rewrite seq_length in H. lia.
Qed.
Theorem C58_charikar_refuted : forall o, 0 < o ->
  (forall r, charikar_returns 2 (clique_out 2) 3 o r -> exists d, r = Some (0, d)) /\ is_density (1, 1) (clique_out 2) [0; 1] /\
  (forall r, charikar_returns 3 (clique_out 3) 4 o r -> r = Some (2, 3)) /\ is_density (2, 1) (clique_out 3) [0; 1; 2].
Proof.
  intros o Ho. split; [|split; [reflexivity|split; [|reflexivity]]].
  - destruct (clique_ok 2) as (S1 & S2 & S3). intros r (order & a & HO & Ha & ->). pose proof (ord_perm S1 Ho S3 HO) as HP.
    unfold greedy_result. rewrite (total_spec S1 S2 HP Ha). fold (num_edges 2 (clique_out 2)). rewrite Nat.eqb_refl.
    cbn [seq map]. rewrite !(scanned_spec S1 S2 HP Ha) by lia. pose proof (ord_len _ HP) as HL. pose proof (fun x => proj1 (ord_in _ HP x)) as HI.
    destruct order as [|x [|y [|z l]]]; try discriminate. cbn [skipn]. clear HP.
    assert (Hy : y < 2) by (apply HI; simpl; auto). destruct y as [|[|y]]; [| |lia]; vm_compute; eauto.
  - destruct (clique_ok 3) as (S1 & S2 & S3). intros r (order & a & HO & Ha & ->). pose proof (ord_perm S1 Ho S3 HO) as HP.
    unfold greedy_result. rewrite (total_spec S1 S2 HP Ha). fold (num_edges 3 (clique_out 3)). rewrite Nat.eqb_refl.
    cbn [seq map]. rewrite !(scanned_spec S1 S2 HP Ha) by lia. pose proof (ord_len _ HP) as HL. pose proof (fun x => proj1 (ord_in _ HP x)) as HI. pose proof (ord_nd _ HP) as ND.
    destruct order as [|x [|y [|z [|w l]]]]; try discriminate. cbn [skipn]. clear HP.
    assert (Hy : y < 3) by (apply HI; simpl; auto). assert (Hz : z < 3) by (apply HI; simpl; auto).
    assert (Hyz : y <> z). { inversion ND as [|? ? _ N]; subst. inversion N as [|? ? M _]; subst. intros ->. apply M. now left. }
    destruct y as [|[|[|y]]]; [| | |lia]; (destruct z as [|[|[|z]]]; [| | |lia]); try congruence; vm_compute; reflexivity.
Qed.
Print Assumptions C58_charikar_refuted.

(* GreedyPlusPlus exits in its first iteration on every simple symmetric graph with more than one edge *)
Theorem C58_greedy_plus_plus_exits : forall n outn o null, 0 < o -> symmetric n outn -> simple n outn -> (forall v, v < n -> length (outn v) < null) ->
  2 < num_edges n outn -> plus_plus_returns n outn null o None /\ forall r, plus_plus_returns n outn null o r -> r = None.
Proof.
  intros n outn o null Ho Hsym Hsimple Hdeg Hm.
  cut (forall r, plus_plus_returns n outn null o r -> r = None).
  { intros HN. split; auto. destruct (C39_degeneracy_order Ho Hsym Hdeg) as [(order & D & s & log & HL & HE) _].
    destruct (above_exists n outn (repeat 0 n ++ concat (map snd log))) as [a Ha].
    assert (R : plus_plus_returns n outn null o (greedy_result n (num_edges n outn) a)).
    { exists (repeat 0 n ++ concat (map snd log)), a. split; auto. exists D, s, log. auto. }
    rewrite (HN _ R) in R. exact R. }
  intros r (order & a & (D & s & log & _ & EO) & [s1 s2 H1 pos H2] & ->).
  assert (HO : forall i, i < n -> nth i order 0 = 0).
  { intros i Hi. rewrite EO. rewrite app_nth1 by (rewrite repeat_length; auto). apply nth_repeat. }
  assert (Hpos : forall v, v <> 0 -> pos v = 0).
  { intros v Hv. apply stores_out. intros X. apply in_map_iff in X as ([k i] & E & Hin). simpl in E. subst k.
    eapply Permutation_in in Hin; [|exact H1]. apply in_map_iff in Hin as (j & E & Hj). injection E as E _. apply in_seq in Hj. rewrite HO in E by lia. congruence. }
  assert (Hst : forall k c, In (k, c) s2 -> k = 0 /\ c <= 2 \/ c = 0).
  { intros k c Hin. eapply Permutation_in in Hin; [|exact H2]. apply in_map_iff in Hin as (u & E & Hu). injection E as <- <-. apply in_seq in Hu.
    destruct (Nat.eq_dec u 0) as [->|Hne].
    - right. rewrite filter_none; auto. intros v _. apply Nat.ltb_ge. destruct (Nat.eq_dec v 0) as [->|Hv]; auto. rewrite (Hpos v Hv). lia.
    - left. split; auto. destruct (Hsimple u ltac:(lia)) as [ND _]. assert (length (filter (fun v => pos u <? pos v) (outn u)) <= length [0]); [|simpl in *; lia].
      apply NoDup_incl_length; [now apply NoDup_filter|]. intros v Hv. apply filter_In in Hv as [_ Hv]. apply Nat.ltb_lt in Hv.
      destruct (Nat.eq_dec v 0) as [->|Hn0]; [now left|]. rewrite (Hpos v Hn0) in Hv. lia. }
  assert (Hz : forall k, k <> 0 -> stores s2 (fun _ => 0) k = 0).
  { intros k Hk. destruct (stores_from s2 (fun _ => 0) k) as [E|E]; auto. apply Hst in E as [[E _]|E]; [congruence|auto]. }
  assert (H0 : stores s2 (fun _ => 0) 0 <= 2).
  { destruct (stores_from s2 (fun _ => 0) 0) as [E|E]; [lia|]. apply Hst in E as [[_ E]|E]; lia. }
  unfold greedy_result, above_total. assert (HT : list_sum (map (stores s2 (fun _ => 0)) (seq 0 n)) <= 2).
  { destruct n as [|n']; [simpl; lia|]. cbn [seq map list_sum fold_right]. change (fold_right Nat.add 0) with list_sum.
    rewrite (map_ext_in _ (fun _ => 0)); [rewrite list_sum_map_0; auto; lia|]. intros k Hk. apply in_seq in Hk. apply Hz. lia. }
  destruct (Nat.eqb_spec (list_sum (map (stores s2 (fun _ => 0)) (seq 0 n))) (num_edges n outn)); auto. lia.
Qed.
Print Assumptions C58_greedy_plus_plus_exits.

(* ---------- a concrete case: a triangle with a pendant vertex ---------- *)
Definition dn_out (v : nat) : list nat := match v with 0 => [1; 2] | 1 => [0; 2] | 2 => [0; 1; 3] | 3 => [2] | _ => [] end.
Example C58_graph_example : symmetric 4 dn_out /\ simple 4 dn_out /\ (forall v, v < 4 -> length (dn_out v) < 9) /\ 2 < num_edges 4 dn_out.
Proof.
  split; [split|split; [|split]].
  - intros u v Hu H. do 4 (destruct u; [simpl in H; intuition lia|]). lia.
  - intros u v Hu Hv. do 4 (destruct u; [do 4 (destruct v; [reflexivity|]); lia|]). lia.
  - intros u Hu. do 4 (destruct u; [split; [repeat (constructor; [simpl; intuition lia|]); constructor|simpl; intuition lia]|]). lia.
  - intros v Hv. do 4 (destruct v; [simpl; lia|]). lia.
  - vm_compute. lia.
Qed.
(* with epsilon = 0: the average degree is 2, so all but vertex 2 are dropped, then vertex 2 *)
Example C58_run_example : dn_returns 4 dn_out 9 0 1 (8, 4).
Proof.
  pose proof (dn_start 4 dn_out 9 0 1) as R0.
  assert (R1 := fun H => @dn_round 4 dn_out 9 0 1 _ _ _ _ [(2, 3)] R0 H (ngh_dense 4 dn_out _ _ (Permutation_refl _))).
  assert (R2 := fun H1 H2 => @dn_round 4 dn_out 9 0 1 _ _ _ _ [] (R1 H1) H2 (ngh_dense 4 dn_out _ _ (Permutation_refl _))).
  exists 2. eexists. refine (R2 _ _); vm_compute; discriminate.
Qed.
Example C58_charikar_example : exists d, charikar_returns 4 dn_out 9 1 (Some d) /\ 0 < snd d.
Proof.
  destruct C58_graph_example as (S1 & S2 & S3 & _).
  destruct (@C58_charikar 4 dn_out 1 9 ltac:(lia) ltac:(lia) S1 S2 S3) as [[r Hr] H]. destruct (H r Hr) as (d & -> & Hd & _). eauto.
Qed.
