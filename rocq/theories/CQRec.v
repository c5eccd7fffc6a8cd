(* The recursion of clique counting counts chains. *)
From Coq Require Import Permutation.
From Verif Require Import Base ListUtil CQModel CQSpec.

Lemma has_In l v : has l v = true <-> In v l.
Proof. unfold has. rewrite existsb_exists. split; [intros (x & H & E); apply Nat.eqb_eq in E; now subst|]. intros H. exists v. now rewrite Nat.eqb_refl. Qed.
Lemma has_false l v : has l v = false <-> ~ In v l.
Proof. rewrite <- has_In. destruct (has l v); split; congruence. Qed.
Lemma total_app a b v : total (a ++ b) v = total a v + total b v.
Proof. unfold total. now rewrite filter_app, map_app, list_sum_app. Qed.
Lemma total_flat {A} (f : A -> list (nat * nat)) l v : total (flat_map f l) v = list_sum (map (fun x => total (f x) v) l).
Proof. induction l as [|a l IH]; simpl; auto. now rewrite total_app, IH. Qed.
Lemma total_one x c v : total [(x, c)] v = if x =? v then c else 0.
Proof. unfold total. simpl. destruct (x =? v); simpl; lia. Qed.
Lemma total_opt x c v : total (if 0 <? c then [(x, c)] else []) v = if x =? v then c else 0.
Proof. destruct (Nat.ltb_spec 0 c); [apply total_one|]. unfold total. simpl. destruct (x =? v); lia. Qed.
Lemma set_all_spec {A} (f : nat -> A) S x w : set_all f S x w = if has S w then x else f w.
Proof.
  unfold set_all. revert f. induction S as [|a S IH]; intros f; simpl; auto. rewrite IH. unfold has at 2. simpl. fold (has S w). unfold fset.
  destruct (w =? a); simpl; destruct (has S w); auto.
Qed.

(* sequences of vertices of S in which each is a neighbour of all the previous ones *)
Fixpoint chains (edges : nat -> list nat) (r : nat) (S : list nat) : list (list nat) :=
  match r with
  | 0 => [[]]
  | Datatypes.S r' => flat_map (fun v => map (cons v) (chains edges r' (filter (has S) (edges v)))) S
  end.
Definition occ (u : nat) (c : list nat) : nat := length (filter (fun x => x =? u) c).
Definition occs (f : nat -> nat) (u : nat) (cs : list (list nat)) : nat := list_sum (map (fun c => occ u (map f c)) cs).
Lemma occs_app f u a b : occs f u (a ++ b) = occs f u a + occs f u b.
Proof. unfold occs. now rewrite map_app, list_sum_app. Qed.
Lemma occs_flat {A} f u (g : A -> list (list nat)) l : occs f u (flat_map g l) = list_sum (map (fun x => occs f u (g x)) l).
Proof. induction l as [|a l IH]; simpl; auto. now rewrite occs_app, IH. Qed.
Lemma occs_cons f u v cs : occs f u (map (cons v) cs) = (if f v =? u then length cs else 0) + occs f u cs.
Proof.
  unfold occs. induction cs as [|c cs IH]; simpl; [destruct (f v =? u); auto|]. rewrite IH. unfold occ at 1. simpl. destruct (f v =? u); simpl; fold (occ u (map f c)); lia.
Qed.
Lemma sum_perm l l' : Permutation l l' -> list_sum l = list_sum l'.
Proof. induction 1; simpl; lia. Qed.
Lemma len_flat {A B} (f : A -> list B) l : length (flat_map f l) = list_sum (map (fun x => length (f x)) l).
Proof. induction l; simpl; auto. now rewrite app_length, IHl. Qed.

Section Chains.
  Variable edges : nat -> list nat.
  Variable ord : nat -> nat.
  Hypothesis Hord : forall v w, In w (edges v) -> ord v < ord w.
  Notation ch := (chains edges).
  Lemma chain_in r S c : In c (ch r S) -> length c = r /\ NoDup c /\ incl c S.
  Proof.
    revert S c. induction r as [|r IH]; intros S c; cbn [chains].
    - intros [<-|[]]. split; auto. split; [constructor|]. intros x [].
    - intros H. apply in_flat_map in H as (v & Hv & H). apply in_map_iff in H as (c' & <- & H). apply IH in H as (A & B & C).
      split; [simpl; auto|]. split.
      + constructor; auto. intros X. apply C in X. apply filter_In in X as [X _]. apply Hord in X. lia.
      + intros x [<-|X]; auto. apply C, filter_In in X. now apply has_In.
  Qed.
  Lemma chains_short r S : length S < r -> ch r S = [].
  Proof.
    intros H. destruct (ch r S) as [|c l] eqn:E; auto. exfalso. destruct (@chain_in r S c) as (A & B & C); [rewrite E; now left|].
    pose proof (NoDup_incl_length B C). lia.
  Qed.
  Lemma chains_one S : ch 1 S = map (fun w => [w]) S.
  Proof. simpl. induction S as [|a S IH]; simpl; auto. Qed.

  Variable half : nat.
  Variable relabel : nat -> nat.
  Variable split : list nat -> list nat -> list (list nat).
  Hypothesis Hsplit : forall p l, Permutation (concat (split p l)) l.
  Notation rec := (hrec half edges relabel split).
  Notation ok r S c cl := (c = length (ch r S) /\ forall u, total cl u = occs relabel u (ch r S)).
  Definition marked (S : list nat) (k_idx : nat) (labels L : nat -> nat) : Prop := forall w, L w = if has S w then k_idx else labels w.
  Lemma out_eq S k_idx labels L v : 0 < k_idx -> k_idx < half -> (forall w, labels w <= k_idx - 1) -> marked S k_idx labels L ->
    filter (fun w => has_label half (L w) k_idx) (edges v) = filter (has S) (edges v).
  Proof.
    intros H1 H2 H3 H4. apply filter_ext. intros w. unfold has_label. rewrite (H4 w). specialize (H3 w). destruct (has S w).
    - rewrite Nat.mod_small by lia. rewrite (proj2 (Nat.ltb_lt _ _) H2), Nat.eqb_refl. reflexivity.
    - rewrite Nat.mod_small by lia. rewrite (proj2 (Nat.eqb_neq (labels w) k_idx)) by lia. apply Bool.andb_false_r.
  Qed.
  Lemma restored S k_idx labels L : (forall w, In w S -> labels w = k_idx - 1) -> marked S k_idx labels L -> forall w, set_all L S (k_idx - 1) w = labels w.
  Proof. intros H1 H2 w. rewrite set_all_spec. destruct (has S w) eqn:E; [symmetry; apply H1; now apply has_In|]. rewrite (H2 w), E. reflexivity. Qed.

  Lemma hrec_ok r : forall k_idx level path labels S, 0 < r -> 0 < k_idx -> k_idx + r - 1 < half ->
    (forall w, labels w <= k_idx - 1) -> (forall w, In w S -> labels w = k_idx - 1) ->
    let '(c, L', cl) := rec r k_idx level path labels S in
    c = length (ch (r + 1) S) /\ (forall w, L' w = labels w) /\ forall u, total cl u = occs relabel u (ch (r + 1) S).
  Proof.
    induction r as [|r' IH]; intros k_idx level path labels S Hr Hk Hh HL HS; [lia|]. cbn [hrec].
    destruct (Nat.eqb_spec (length S) 0) as [E|E].
    { destruct S; [|discriminate]. simpl. auto. }
    set (L := set_all labels S k_idx).
    assert (HM : marked S k_idx labels L) by (intros w; apply set_all_spec).
    assert (Hout : forall L' v, marked S k_idx labels L' -> filter (fun w => has_label half (L' w) k_idx) (edges v) = filter (has S) (edges v)) by (intros; apply out_eq with (labels := labels); auto; lia).
    destruct (Nat.eqb_spec r' 0) as [->|Hr'].
    { cbn [Nat.add]. cbn [chains]. split; [|split].
      - rewrite len_flat. f_equal. apply map_ext. intros v. rewrite map_length, (Hout L v HM). change (flat_map (fun v0 => map (cons v0) [[]]) (filter (has S) (edges v))) with (ch 1 (filter (has S) (edges v))). rewrite chains_one, map_length. reflexivity.
      - now apply restored.
      - intros u. rewrite total_flat, occs_flat. f_equal. apply map_ext. intros v. rewrite total_app, total_opt, (Hout L v HM).
        change (flat_map (fun v0 => map (cons v0) [[]]) (filter (has S) (edges v))) with (ch 1 (filter (has S) (edges v))). rewrite chains_one, occs_cons, map_length.
        rewrite Nat.add_comm. f_equal. unfold occs. rewrite map_map. cbn [map]. induction (filter (has S) (edges v)) as [|a l IHl]; simpl; auto.
        change ((relabel a, 1) :: map (fun w => (relabel w, 1)) l) with ([(relabel a, 1)] ++ map (fun w => (relabel w, 1)) l). rewrite total_app, total_one, IHl. unfold occ. simpl. destruct (relabel a =? u); auto. }
    replace (Datatypes.S r' + 1) with (Datatypes.S (r' + 1)) by lia.
    assert (Hone : forall k2 lev p L2 L1 v, 0 < k2 -> k2 + r' - 1 < half -> marked S k_idx labels L1 -> (forall w, L2 w <= k2 - 1) -> (forall w, In w S -> L2 w = k2 - 1) ->
       let o := filter (fun w => has_label half (L1 w) k_idx) (edges v) in
       let '(c, L', cl) := rec r' k2 lev p L2 o in
       c = length (ch (r' + 1) (filter (has S) (edges v))) /\ (forall w, L' w = L2 w) /\ forall u, total cl u = occs relabel u (ch (r' + 1) (filter (has S) (edges v)))).
    { intros k2 lev p L2 L1 v A1 A2 A3 A4 A5. cbv zeta. rewrite (Hout L1 v A3). apply IH; auto; try lia. intros w Hw. apply filter_In in Hw as [_ Hw]. now apply A5, has_In. }
    assert (Hshort : forall L1 v, marked S k_idx labels L1 -> ~ r' < length (filter (fun w => has_label half (L1 w) k_idx) (edges v)) -> ch (r' + 1) (filter (has S) (edges v)) = []).
    { intros L1 v A B. rewrite (Hout L1 v A) in B. apply chains_short. lia. }
    destruct ((level <? k_idx) || (length S <? 2)).
    - assert (HF : forall T tot Lc cl, marked S k_idx labels Lc ->
        let '(tot', L', cl') := fold_left (fun acc v => let '(tot, L, cl) := acc in
            if r' <? length (filter (fun w => has_label half (L w) k_idx) (edges v)) then
              let '(c, L', cl') := rec r' (k_idx + 1) level (v :: path) L (filter (fun w => has_label half (L w) k_idx) (edges v)) in
              (tot + c, L', cl ++ cl' ++ (if 0 <? c then [(relabel v, c)] else []))
            else acc) T (tot, Lc, cl) in
        tot' = tot + length (flat_map (fun v => map (cons v) (ch (r' + 1) (filter (has S) (edges v)))) T) /\ marked S k_idx labels L' /\
        forall u, total cl' u = total cl u + occs relabel u (flat_map (fun v => map (cons v) (ch (r' + 1) (filter (has S) (edges v)))) T)).
      { induction T as [|v T IHT]; intros tot Lc cl HMc; cbn [fold_left].
        - split; [simpl; lia|]. split; [exact HMc|]. intros u. unfold occs. simpl. lia.
        - cbn [flat_map]. rewrite app_length, map_length.
          destruct (Nat.ltb_spec r' (length (filter (fun w => has_label half (Lc w) k_idx) (edges v)))) as [Hlt|Hlt].
          + pose proof (Hone (k_idx + 1) level (v :: path) Lc Lc v) as X. cbv zeta in X.
            assert (Hle : forall w, Lc w <= k_idx + 1 - 1) by (intros w; rewrite (HMc w); specialize (HL w); destruct (has S w); lia).
            assert (Heq : forall w, In w S -> Lc w = k_idx + 1 - 1) by (intros w Hw; rewrite (HMc w), (proj2 (has_In S w) Hw); lia).
            specialize (X ltac:(lia) ltac:(lia) HMc Hle Heq).
            destruct (rec r' (k_idx + 1) level (v :: path) Lc _) as [[c L'] cl']. destruct X as (X1 & X2 & X3).
            specialize (IHT (tot + c) L' (cl ++ cl' ++ (if 0 <? c then [(relabel v, c)] else []))).
            destruct (fold_left _ T _) as [[tot' L''] cl'']. destruct IHT as (Y1 & Y2 & Y3); [intros w; rewrite X2; apply HMc|].
            split; [rewrite Y1, <- X1; lia|]. split; auto. intros u. rewrite Y3, !total_app, total_opt, X3, occs_app, occs_cons, <- X1. lia.
          + rewrite (Hshort Lc v HMc) by lia. specialize (IHT tot Lc cl HMc). destruct (fold_left _ T _) as [[tot' L''] cl'']. exact IHT. }
      specialize (HF S 0 L [] HM). destruct (fold_left _ S _) as [[tot' L'] cl']. destruct HF as (X1 & X2 & X3). split; [exact X1|]. split; [now apply restored|].
      intros u. rewrite X3. reflexivity.
    - set (group := fold_left (fun acc v => let '(tot, L2, cl) := acc in
            if r' <? length (filter (fun w => has_label half (L w) k_idx) (edges v)) then
              let '(c, L2', cl') := rec r' 1 0 (v :: path) L2 (filter (fun w => has_label half (L w) k_idx) (edges v)) in
              (tot + c, L2', cl ++ cl' ++ (if 0 <? c then [(relabel v, c)] else []))
            else acc)).
      set (g := fun v => map (cons v) (ch (r' + 1) (filter (has S) (edges v)))).
      assert (HF : forall T tot L2 cl, (forall w, L2 w = 0) -> let '(tot', L', cl') := group T (tot, L2, cl) in
        tot' = tot + length (flat_map g T) /\ forall u, total cl' u = total cl u + occs relabel u (flat_map g T)).
      { induction T as [|v T IHT]; intros tot L2 cl HZ; unfold group; cbn [fold_left]; fold group.
        - split; [simpl; lia|]. intros u. unfold occs. simpl. lia.
        - cbn [flat_map]. rewrite app_length. unfold g at 1 3. rewrite map_length.
          destruct (Nat.ltb_spec r' (length (filter (fun w => has_label half (L w) k_idx) (edges v)))) as [Hlt|Hlt].
          + pose proof (Hone 1 0 (v :: path) L2 L v) as X. cbv zeta in X.
            specialize (X ltac:(lia) ltac:(lia) HM ltac:(intros w; rewrite HZ; lia) ltac:(intros w _; apply HZ)).
            destruct (rec r' 1 0 (v :: path) L2 _) as [[c L'] cl']. destruct X as (X1 & X2 & X3).
            specialize (IHT (tot + c) L' (cl ++ cl' ++ (if 0 <? c then [(relabel v, c)] else []))).
            destruct (group T _) as [[tot' L''] cl'']. destruct IHT as (Y1 & Y3); [intros w; rewrite X2; apply HZ|].
            split; [rewrite Y1, <- X1; lia|]. intros u. rewrite Y3, !total_app, total_opt, X3, occs_app, occs_cons, <- X1. lia.
          + rewrite (Hshort L v HM) by lia. specialize (IHT tot L2 cl HZ). destruct (group T _) as [[tot' L''] cl'']. exact IHT. }
      assert (HFF : forall gs, list_sum (map (fun x => fst (fst x)) (map (fun t => group t (0, fun _ => 0, [])) gs)) = length (flat_map g (concat gs)) /\
        forall u, total (flat_map (fun x => snd x) (map (fun t => group t (0, fun _ => 0, [])) gs)) u = occs relabel u (flat_map g (concat gs))).
      { induction gs as [|t gs [IH1 IH2]]; [split; reflexivity|]. cbn [map concat list_sum flat_map fold_right]. rewrite flat_map_app, app_length.
        specialize (HF t 0 (fun _ => 0) [] (fun _ => eq_refl)). destruct (group t _) as [[tt L'] cl']. destruct HF as [X1 X2]. cbn [fst snd] in *. split.
        - rewrite X1. f_equal. exact IH1.
        - intros u. rewrite total_app, X2, occs_app, IH2. reflexivity. }
      destruct (HFF (split path S)) as [X1 X2]. pose proof (Permutation_flat_map g (Hsplit path S)) as HP.
      split; [rewrite X1; apply (Permutation_length HP)|]. split; [now apply restored|]. intros u. rewrite X2. unfold occs. apply sum_perm. now apply Permutation_map.
  Qed.

  (* levels of half or more find nothing *)
  Lemma hrec_zero r : forall k_idx path labels S, 0 < k_idx -> half <= k_idx + r - 1 -> fst (fst (rec r k_idx 0 path labels S)) = 0.
  Proof.
    induction r as [|r' IH]; intros k_idx path labels S Hk Hh; cbn [hrec]; auto. destruct (length S =? 0); auto.
    set (L := set_all labels S k_idx). destruct (Nat.eqb_spec r' 0) as [->|Hr].
    - cbn [fst]. assert (E : forall x, has_label half x k_idx = false).
      { intros x. unfold has_label. destruct (Nat.ltb_spec (x mod (2 * half)) half); auto. cbn [andb]. apply Nat.eqb_neq. lia. }
      rewrite (map_ext _ (fun _ => 0)); [|intros v; rewrite filter_none by (intros; apply E); reflexivity]. induction S; simpl; auto.
    - replace (0 <? k_idx) with true by (symmetry; apply Nat.ltb_lt; lia). cbn [orb].
      assert (HF : forall T Lc cl, fst (fst (fold_left (fun acc v => let '(tot, L, cl) := acc in
            if r' <? length (filter (fun w => has_label half (L w) k_idx) (edges v)) then
              let '(c, L', cl') := rec r' (k_idx + 1) 0 (v :: path) L (filter (fun w => has_label half (L w) k_idx) (edges v)) in
              (tot + c, L', cl ++ cl' ++ (if 0 <? c then [(relabel v, c)] else []))
            else acc) T (0, Lc, cl))) = 0).
      { induction T as [|v T IHT]; intros Lc cl; cbn [fold_left]; auto. destruct (r' <? _); [|apply IHT].
        pose proof (IH (k_idx + 1) (v :: path) Lc (filter (fun w => has_label half (Lc w) k_idx) (edges v)) ltac:(lia) ltac:(lia)) as X.
        destruct (rec r' (k_idx + 1) 0 (v :: path) Lc _) as [[c L'] cl']. cbn [fst] in X. subst c. apply IHT. }
      specialize (HF S L []). destruct (fold_left _ S _) as [[tot L'] cl]. exact HF.
  Qed.

  Variable k : nat.
  Notation erc := (erec half edges relabel k).
  Lemma erec_ok r : forall k_idx labels base S, 0 < r -> 0 < k_idx -> k_idx + r = k -> k - 1 < half ->
    (forall w, labels w <= k_idx - 1) -> (forall w, In w S -> labels w = k_idx - 1) ->
    let '(c, L', b', made) := erc r k_idx labels base S in
    c = length (ch (r + 1) S) /\ (forall w, L' w = labels w) /\ (forall j, j < k_idx -> b' j = base j) /\
    made = map (fun c => map base (seq 0 k_idx) ++ map relabel c) (ch (r + 1) S).
  Proof.
    induction r as [|r' IH]; intros k_idx labels base S Hr Hk Hkk Hh HL HS; [lia|]. cbn [erec].
    destruct (Nat.eqb_spec (length S) 0) as [E|E].
    { destruct S; [|discriminate]. simpl. auto. }
    set (L := set_all labels S k_idx).
    assert (HM : marked S k_idx labels L) by (intros w; apply set_all_spec).
    assert (Hout : forall L' v, marked S k_idx labels L' -> filter (fun w => has_label half (L' w) k_idx) (edges v) = filter (has S) (edges v)) by (intros; apply out_eq with (labels := labels); auto; lia).
    assert (Hpre : forall b b' : nat -> nat, (forall j, j < k_idx -> b' j = b j) -> map b' (seq 0 k_idx) = map b (seq 0 k_idx)).
    { intros b b' H. apply map_ext_in. intros j Hj. apply in_seq in Hj. apply H. lia. }
    destruct (Nat.eqb_spec r' 0) as [->|Hr'].
    { assert (Hin : forall v (b : nat -> nat) T made, b k_idx = relabel v -> 
        let '(b', made') := fold_left (fun am w => let b := fset (fst am) k (relabel w) in (b, snd am ++ [map b (seq 0 (k + 1))])) T (b, made) in
        (forall j, j < k -> b' j = b j) /\ made' = made ++ map (fun w => map b (seq 0 k_idx) ++ [relabel v; relabel w]) T).
      { intros v b T. revert b. induction T as [|w T IHT]; intros b made Hb; cbn [fold_left fst snd].
        - split; auto. simpl. now rewrite app_nil_r.
        - specialize (IHT (fset b k (relabel w)) (made ++ [map (fset b k (relabel w)) (seq 0 (k + 1))])). destruct (fold_left _ T _) as [b' made'].
          destruct IHT as [A B]; [rewrite fset_other by lia; auto|]. split.
          + intros j Hj. rewrite A by auto. apply fset_other. lia.
          + rewrite B, <- app_assoc. f_equal. cbn [map app]. f_equal.
            * replace (k + 1) with (k_idx + 2) by lia. rewrite seq_app, map_app. f_equal.
              -- apply Hpre. intros j Hj. apply fset_other. lia.
              -- cbn [seq map]. replace (0 + k_idx) with k_idx by lia. replace (Datatypes.S k_idx) with k by lia. rewrite fset_same, fset_other, Hb by lia. reflexivity.
            * apply map_ext. intros w'. f_equal. apply Hpre. intros j Hj. apply fset_other. lia. }
      assert (HF : forall T tot b made, let '(tot', b', made') := fold_left (fun acc v =>
            let '(tot, base, made) := acc in
            let b1 := fset base k_idx (relabel v) in
            let '(b2, made') := fold_left (fun am w =>
                let b := fset (fst am) k (relabel w) in (b, snd am ++ [map b (seq 0 (k + 1))])) (filter (fun w => has_label half (L w) k_idx) (edges v)) (b1, []) in
            (tot + length (filter (fun w => has_label half (L w) k_idx) (edges v)), b2, made ++ made')) T (tot, b, made) in
         tot' = tot + length (flat_map (fun v => map (cons v) (ch 1 (filter (has S) (edges v)))) T) /\ (forall j, j < k_idx -> b' j = b j) /\
         made' = made ++ map (fun c => map b (seq 0 k_idx) ++ map relabel c) (flat_map (fun v => map (cons v) (ch 1 (filter (has S) (edges v)))) T)).
      { induction T as [|v T IHT]; intros tot b made; cbn [fold_left].
        - split; [simpl; lia|]. split; auto. simpl. now rewrite app_nil_r.
        - cbv zeta. rewrite (Hout L v HM). specialize (Hin v (fset b k_idx (relabel v)) (filter (has S) (edges v)) [] ltac:(apply fset_same)).
          destruct (fold_left _ (filter (has S) (edges v)) _) as [b2 made2]. destruct Hin as [A B].
          specialize (IHT (tot + length (filter (has S) (edges v))) b2 (made ++ made2)). destruct (fold_left _ T _) as [[tot' b'] made']. destruct IHT as (C & D & F).
          assert (Hb2 : forall j, j < k_idx -> b2 j = b j) by (intros j Hj; rewrite A by lia; apply fset_other; lia).
          cbn [flat_map]. rewrite app_length, map_length, chains_one, map_length. split; [lia|]. split; [intros j Hj; rewrite D, Hb2; auto|].
          rewrite F, B, map_app, <- app_assoc. f_equal. cbn [app]. f_equal.
          + rewrite !map_map. apply map_ext. intros w. f_equal. apply Hpre. intros j Hj. apply fset_other. lia.
          + apply map_ext. intros c. f_equal. now apply Hpre. }
      specialize (HF S 0 base []). destruct (fold_left _ S _) as [[tot b'] made]. destruct HF as (A & B & C). split; [exact A|]. split; [now apply restored|]. split; auto. }
    replace (Datatypes.S r' + 1) with (Datatypes.S (r' + 1)) by lia.
    assert (HF : forall T tot Lc b made, marked S k_idx labels Lc -> let '(tot', L', b', made') := fold_left (fun acc v =>
            let '(tot, L, base, made) := acc in
            if r' <? length (filter (fun w => has_label half (L w) k_idx) (edges v)) then
              let '(c, L', base', made') := erc r' (k_idx + 1) L (fset base k_idx (relabel v)) (filter (fun w => has_label half (L w) k_idx) (edges v)) in
              (tot + c, L', base', made ++ made')
            else acc) T (tot, Lc, b, made) in
         tot' = tot + length (flat_map (fun v => map (cons v) (ch (r' + 1) (filter (has S) (edges v)))) T) /\ marked S k_idx labels L' /\ (forall j, j < k_idx -> b' j = b j) /\
         made' = made ++ map (fun c => map b (seq 0 k_idx) ++ map relabel c) (flat_map (fun v => map (cons v) (ch (r' + 1) (filter (has S) (edges v)))) T)).
    { induction T as [|v T IHT]; intros tot Lc b made HMc; cbn [fold_left].
      - split; [simpl; lia|]. split; [exact HMc|]. split; auto. simpl. now rewrite app_nil_r.
      - rewrite (Hout Lc v HMc). cbn [flat_map]. destruct (Nat.ltb_spec r' (length (filter (has S) (edges v)))) as [Hlt|Hlt].
        + assert (Hle : forall w, Lc w <= k_idx + 1 - 1) by (intros w; rewrite (HMc w); specialize (HL w); destruct (has S w); lia).
          assert (Heq : forall w, In w (filter (has S) (edges v)) -> Lc w = k_idx + 1 - 1).
          { intros w Hw. apply filter_In in Hw as [_ Hw]. rewrite (HMc w), Hw. lia. }
          pose proof (IH (k_idx + 1) Lc (fset b k_idx (relabel v)) (filter (has S) (edges v)) ltac:(lia) ltac:(lia) ltac:(lia) Hh Hle Heq) as X.
          destruct (erc r' (k_idx + 1) Lc _ _) as [[[c L'] b2] made2]. destruct X as (X1 & X2 & X3 & X4).
          specialize (IHT (tot + c) L' b2 (made ++ made2)). destruct (fold_left _ T _) as [[[tot' L''] b'] made'].
          destruct IHT as (Y1 & Y2 & Y3 & Y4); [intros w; rewrite X2; apply HMc|].
          assert (Hb2 : forall j, j < k_idx -> b2 j = b j) by (intros j Hj; rewrite X3 by lia; apply fset_other; lia).
          rewrite app_length, map_length. split; [rewrite Y1, <- X1; lia|]. split; [exact Y2|]. split; [intros j Hj; rewrite Y3, Hb2; auto|].
          rewrite Y4, X4, map_app, <- app_assoc. f_equal. f_equal.
          * rewrite map_map. apply map_ext. intros c'. replace (k_idx + 1) with (Datatypes.S k_idx) by lia. rewrite seq_S, map_app, <- app_assoc. cbn [map app]. rewrite Nat.add_0_l, fset_same. f_equal.
            apply Hpre. intros j Hj. apply fset_other. lia.
          * apply map_ext. intros c'. f_equal. now apply Hpre.
        + rewrite chains_short by lia. apply IHT. exact HMc. }
    specialize (HF S 0 L base [] HM). destruct (fold_left _ S _) as [[[tot L'] b'] made]. destruct HF as (A & B & C & D). split; [exact A|]. split; [now apply restored|]. split; [exact C|]. exact D.
  Qed.
End Chains.
