(* Theorems for C91. *)
From Coq Require Import ZArith Lia Ascii String.
From Verif Require Import Base CMModel CMSpec CMProofs.
Unset Strict Implicit.
Local Open Scope list_scope.

(* a flag is found exactly if it is one of the words after the program name *)
Theorem C91_option : forall (argv : list word) (o : word),
  (In o (tl argv) -> getOption argv o = Value true) /\ (~ In o (tl argv) -> getOption argv o = Value false).
Proof. intros argv o. rewrite getOption_spec. destruct (in_dec (list_eq_dec Nat.eq_dec) o (tl argv)); split; tauto. Qed.

(* the value of an option: the word after its first occurrence (other than as the last word); NULL, or the default, without *)
Theorem C91_value : forall (argv : list word) (o d : word),
  (forall v, has_value argv o v -> getOptionValue argv o = Value (Some v) /\ getOptionValueOr argv o d = Value v) /\
  (no_value argv o -> getOptionValue argv o = Value None /\ getOptionValueOr argv o d = Value d) /\
  ((exists v, has_value argv o v) \/ no_value argv o).
Proof.
  intros argv o d.
  destruct (with_value_spec argv o (fun w => Value (Some w)) None) as [(v & Hv & E)|(Hv & E)]; destruct (with_value_spec argv o (fun w => Value w) d) as [(v' & Hv' & E')|(Hv' & E')];
    try (exfalso; eauto using value_excl; fail); unfold getOptionValue, getOptionValueOr; rewrite E, E'.
  - rewrite (value_fun Hv' Hv). split; [|split; [intros H; destruct (value_excl Hv H)|eauto]]. intros u Hu. rewrite (value_fun Hu Hv). auto.
  - split; [intros u Hu; destruct (value_excl Hu Hv)|auto].
Qed.

(* numbers: an option's value is read as the number its word starts with, as 0 if it starts with none, and never as the
   default; the result is undefined exactly if that number does not fit.  A negative long comes back as its residue *)
Theorem C91_int : forall (argv : list word) (o : word) (d : Z),
  (forall v z, has_value argv o v -> number_of v z ->
     ((- 2 ^ 31 <= z < 2 ^ 31)%Z -> getOptionIntValue argv o d = Value z) /\ (~ (- 2 ^ 31 <= z < 2 ^ 31)%Z -> getOptionIntValue argv o d = Undef)) /\
  (no_value argv o -> getOptionIntValue argv o d = Value d).
Proof.
  intros argv o d. unfold getOptionIntValue. destruct (with_value_spec argv o (fun w => atoi w) d) as [(v & Hv & ->)|(Hv & ->)].
  - split; [|intros H; destruct (value_excl Hv H)]. intros u z Hu Hz. rewrite (value_fun Hu Hv) in Hz. unfold atoi, fits. rewrite (number_fun (read_number_spec v) Hz).
    change (32 - 1)%Z with 31%Z. split; intros R.
    + rewrite (proj2 (Z.leb_le _ _)), (proj2 (Z.ltb_lt _ _)) by lia. reflexivity.
    + destruct (Z.leb_spec (- 2 ^ 31) z); destruct (Z.ltb_spec z (2 ^ 31)); cbn [andb]; auto. lia.
  - split; auto. intros u z Hu. destruct (value_excl Hu Hv).
Qed.
Theorem C91_long : forall (argv : list word) (o : word) (d : Z),
  (forall v z, has_value argv o v -> number_of v z ->
     ((0 <= z < 2 ^ 63)%Z -> getOptionLongValue argv o d = Value z) /\
     ((- 2 ^ 63 <= z < 0)%Z -> getOptionLongValue argv o d = Value (2 ^ 64 + z)%Z) /\
     (~ (- 2 ^ 63 <= z < 2 ^ 63)%Z -> getOptionLongValue argv o d = Undef)) /\
  (no_value argv o -> getOptionLongValue argv o d = Value d).
Proof.
  intros argv o d. unfold getOptionLongValue. destruct (with_value_spec argv o (fun w => obind (atol w) (fun r => Value (r mod 2 ^ 64)%Z)) d) as [(v & Hv & ->)|(Hv & ->)].
  - split; [|intros H; destruct (value_excl Hv H)]. intros u z Hu Hz. rewrite (value_fun Hu Hv) in Hz. unfold atol, fits. rewrite (number_fun (read_number_spec v) Hz).
    change (64 - 1)%Z with 63%Z. assert (P : (2 ^ 64 = 2 * 2 ^ 63)%Z) by reflexivity. assert (Q : (0 < 2 ^ 63)%Z) by reflexivity. split; [|split]; intros R.
    + rewrite (proj2 (Z.leb_le _ _)), (proj2 (Z.ltb_lt _ _)) by lia. cbn [andb obind]. now rewrite Z.mod_small by lia.
    + rewrite (proj2 (Z.leb_le _ _)), (proj2 (Z.ltb_lt _ _)) by lia. cbn [andb obind]. f_equal. symmetry. apply (Z.mod_unique_pos z (2 ^ 64) (-1)); lia.
    + destruct (Z.leb_spec (- 2 ^ 63) z); destruct (Z.ltb_spec z (2 ^ 63)); cbn [andb obind]; auto. lia.
  - split; auto. intros u z Hu. destruct (value_excl Hu Hv).
Qed.
(* for any reading of doubles: aborts at a blank word, and is undefined at one that does not start with a number *)
Theorem C91_double : forall (D : Type) (sscanf : word -> scanned D) (argv : list word) (o : word) (d : D),
  (forall v, has_value argv o v -> match sscanf v with
     | ScanNum x => getOptionDoubleValue argv sscanf o d = Value x
     | ScanEOF _ => getOptionDoubleValue argv sscanf o d = Abort
     | ScanNone _ => getOptionDoubleValue argv sscanf o d = Undef end) /\
  (no_value argv o -> getOptionDoubleValue argv sscanf o d = Value d).
Proof.
  intros D sc argv o d. unfold getOptionDoubleValue.
  destruct (with_value_spec argv o (fun w => match sc w with ScanEOF _ => Abort | ScanNone _ => Undef | ScanNum x => Value x end) d) as [(v & Hv & ->)|(Hv & ->)].
  - split; [|intros H; destruct (value_excl Hv H)]. intros u Hu. rewrite (value_fun Hu Hv). destruct (sc v); auto.
  - split; auto. intros u Hu. destruct (value_excl Hu Hv).
Qed.

(* positions count from the end, the program name is never returned, too few words abort *)
Theorem C91_positions : forall (argv : list word),
  (forall i, List.length argv < 2 + i -> getArgument argv i = Abort) /\
  (forall prog pre w post, argv = prog :: pre ++ w :: post -> getArgument argv (List.length post) = Value w) /\
  (List.length argv < 3 -> IOFileNames argv = Abort /\ sizeAndFileName argv = Abort) /\
  (forall prog pre a b, argv = prog :: pre ++ [a; b] -> IOFileNames argv = Value (a, b) /\
     forall z, number_of a z -> (- 2 ^ 31 <= z < 2 ^ 31)%Z -> sizeAndFileName argv = Value (z, b)).
Proof.
  intros argv. unfold getArgument, IOFileNames, sizeAndFileName, argc. split; [|split; [|split]].
  - intros i H. now rewrite (proj2 (Nat.ltb_lt _ _) H).
  - intros prog pre w post ->. cbn [List.length]. rewrite app_length. cbn [List.length]. rewrite (proj2 (Nat.ltb_ge _ _)) by lia.
    replace (S (List.length pre + S (List.length post)) - 1 - List.length post) with (S (List.length pre)) by lia. unfold at_arg. cbn [nth_error].
    rewrite nth_error_app2, Nat.sub_diag by auto. reflexivity.
  - intros H. rewrite (proj2 (Nat.ltb_lt _ _) H). auto.
  - intros prog pre a b ->. cbn [List.length]. rewrite app_length. cbn [List.length]. rewrite (proj2 (Nat.ltb_ge _ _)) by lia.
    replace (S (List.length pre + 2) - 2) with (S (List.length pre)) by lia. replace (S (List.length pre + 2) - 1) with (S (S (List.length pre))) by lia.
    assert (A : nth_error (prog :: pre ++ [a; b]) (S (List.length pre)) = Some a) by (clear; cbn; induction pre; cbn; auto).
    assert (B : nth_error (prog :: pre ++ [a; b]) (S (S (List.length pre))) = Some b) by (clear; cbn; induction pre; cbn; auto).
    unfold at_arg. rewrite A, B. cbn [obind]. split; auto. intros z Hz R. unfold atoi, fits. rewrite (number_fun (read_number_spec a) Hz). change (32 - 1)%Z with 31%Z.
    rewrite (proj2 (Z.leb_le _ _)), (proj2 (Z.ltb_lt _ _)) by lia. reflexivity.
Qed.

(* words for the examples *)
Definition bytes (s : string) : word := map nat_of_ascii (list_ascii_of_string s).
(* options are not told apart from values: a value can be another option or the input file, which is then read as 0, and a
   value counts as a flag *)
Theorem C91_confused_refuted :
  (exists argv o v, has_value argv o v /\ hd 0 v = 45 /\ getOptionValue argv o = Value (Some v) /\ getOption argv v = Value true) /\
  (exists argv o file, last argv [] = file /\ getOptionValue argv o = Value (Some file) /\ forall d, getOptionIntValue argv o d = Value 0%Z).
Proof.
  split.
  - exists [bytes "BFS"; bytes "-out"; bytes "-s"; bytes "graph"], (bytes "-out"), (bytes "-s"). split; [|repeat split; vm_compute; reflexivity].
    exists (bytes "BFS"), [], [bytes "graph"]. split; [reflexivity|intros []].
  - exists [bytes "BFS"; bytes "-rounds"; bytes "graph"], (bytes "-rounds"), (bytes "graph"). repeat split.
Qed.

Example C91_example :
  let argv := [bytes "BFS"; bytes "-s"; bytes "-src"; bytes " -17x"; bytes "-rounds"; bytes "4294967296"; bytes "-src"; bytes "3"; bytes "graph"] in
  getOption argv (bytes "-s") = Value true /\ getOption argv (bytes "BFS") = Value false /\ getOptionIntValue argv (bytes "-src") 5 = Value (-17)%Z /\
  getOptionLongValue argv (bytes "-src") 5 = Value (2 ^ 64 - 17)%Z /\ getOptionIntValue argv (bytes "-rounds") 5 = Undef /\ getOptionLongValue argv (bytes "-rounds") 5 = Value 4294967296%Z /\
  getOptionIntValue argv (bytes "graph") 5 = Value 5%Z /\ getArgument argv 0 = Value (bytes "graph").
Proof. vm_compute. repeat split. Qed.

Print Assumptions C91_option.
Print Assumptions C91_value.
Print Assumptions C91_int.
Print Assumptions C91_long.
Print Assumptions C91_double.
Print Assumptions C91_positions.
Print Assumptions C91_confused_refuted.
