(* Model of the graph generators: utils/generators/barabasi_albert.h and utils/generators/rmat.h.
   Random numbers and hash values are arbitrary functions.  A store or load outside an array is Undef;
   Running: the fuel given to a rejection loop did not suffice. *)
From Coq Require Import NArith QArith.
From Verif Require Import Base GBModel.
Open Scope nat_scope.

Inductive outcome (A : Type) := Done (x : A) | Undef | Running | Aborted.
Arguments Done {A} x.
Arguments Undef {A}.
Arguments Running {A}.
Arguments Aborted {A}.

(* -- utils/generators/barabasi_albert.h:8-50 generate_updates ---------------------------------------- *)
Section BA.
  Variable rnd : nat -> nat -> nat.      (* rnd i p: the p-th number drawn from rnd.fork(i) and its successors *)
  Variable trunc : nat -> nat.           (* conversion of size_t to uintE (21, 22) *)
  Variables n epn : nat.
  (* 11-14 *)
  Definition ba_path : list (nat * (nat * nat)) := map (fun i => (i, (i, i + 1))) (seq 0 epn).
  (* 20-33: draw until the number is not among those of the earlier edges of this vertex (which are in
     .second of the slots written before); every draw uses the next state of the generator (29, 34) *)
  Fixpoint ba_draw (fuel i p : nat) (prev : list nat) : option (nat * nat) :=
    match fuel with
    | 0 => None
    | S fuel =>
        let idx := trunc (rnd i p mod (2 * i * epn)) in
        if existsb (Nat.eqb idx) prev then ba_draw fuel i (S p) prev else Some (idx, S p)
    end.
  (* 19-37: the numbers of one vertex, in order; prev: those drawn so far *)
  Fixpoint ba_draws (fuel i todo p : nat) (prev : list nat) : option (list nat) :=
    match todo with
    | 0 => Some prev
    | S todo => match ba_draw fuel i p prev with
                | None => None
                | Some (idx, p) => ba_draws fuel i todo p (prev ++ [idx])
                end
    end.
  (* 16-38: the iterations of the parallel loop in some order; each writes the slots of its own vertex *)
  Fixpoint ba_fill (fuel : nat) (order : list nat) (arr : list (nat * nat)) : outcome (list (nat * nat)) :=
    match order with
    | [] => Done arr
    | i :: order =>
        match ba_draws fuel i epn 0 [] with
        | None => Running
        | Some ids =>
            match run_stores (combine (seq (i * epn) epn) (map (fun idx => (i, idx)) ids)) arr with
            | None => Undef
            | Some arr => ba_fill fuel order arr
            end
        end
    end.
  (* 41-50: slot by slot, replace the number of an endpoint by the endpoint *)
  Fixpoint ba_resolve (slots : list nat) (arr : list (nat * nat)) : outcome (list (nat * nat)) :=
    match slots with
    | [] => Done arr
    | i :: slots =>
        match nth_error arr i with
        | None => Undef
        | Some (u, offset) =>
            match nth_error arr (offset / 2) with
            | None => Undef
            | Some (a, b) => ba_resolve slots (lset arr i (u, if offset mod 2 =? 0 then a else b))
            end
        end
    end.
  (* 8-52; the array has n * epn pairs *)
  Definition ba_generate (fuel : nat) (order : list nat) : outcome (list (nat * nat)) :=
    let m := n * epn in
    match run_stores ba_path (repeat (0, 0) m) with
    | None => Undef
    | Some arr =>
        match ba_fill fuel order arr with
        | Done arr => ba_resolve (seq epn (m - epn)) arr
        | o => o
        end
    end.
End BA.

(* -- utils/generators/rmat.h ---------------------------------------------------------------------------- *)
Section RMAT.
  Variable hash32 : N -> Q.              (* hashDouble (30-32): a hash divided by the largest id *)
  Variable hash64 : N -> N.
  Variables a ab abc : Q.                (* 40-42 *)
  Variable h : N.                        (* 43 *)
  Definition u32 (x : N) : N := (x mod 2 ^ 32)%N.
  Definition u64 (x : N) : N := (x mod 2 ^ 64)%N.
  Definition Qlt_b (x y : Q) : bool := negb (Qle_bool y x).
  (* 54-73 rMatRec; fuel: the depth of the recursion.  uintE additions wrap around *)
  Fixpoint rMatRec (fuel : nat) (nn start stride : N) : option (N * N) :=
    if (nn =? 1)%N then Some (0, 0)%N else
    match fuel with
    | 0 => None
    | S fuel =>
        match rMatRec fuel (nn / 2)%N (u32 (start + stride)) stride with
        | None => None
        | Some (x, y) =>
            let r := hash32 start in
            if Qlt_b r a then Some (x, y)
            else if Qlt_b r ab then Some (x, u32 (y + nn / 2))
            else if Qlt_b r abc then Some (u32 (x + nn / 2), y)
            else Some (u32 (x + nn / 2), u32 (y + nn / 2))
        end
    end.
  (* 75-79 operator(); i is converted to uintE (91) *)
  Definition start_of (i : N) : N := u32 (hash64 (u64 (u32 (2 * u32 i) * h))).
  Definition stride_of (i : N) : N := u32 (hash64 (u64 (u32 (2 * u32 i + 1) * h))).
  Definition rmat_edge (fuel : nat) (nn i : N) : option (N * N) := rMatRec fuel nn (start_of i) (stride_of i).
  (* parlay::log2_up on a 32-bit number: for 0 the loop starts from the wrapped-around n - 1 *)
  Definition log2_up32 (n : N) : N := if (n =? 0)%N then 32 else N.log2_up n.
  (* 82-93 generate_updates with rMat_gen's constructor (39-52): the shift (88) is undefined for 32 bits or
     more, and the test of n (49) compares with the same power of two *)
  Definition rmat_generate (fuel : nat) (n : N) (m : nat) : outcome (list (option (N * N))) :=
    let k := log2_up32 n in
    if (32 <=? k)%N then Undef else
    let nn := (2 ^ k)%N in
    if Qlt_b 1 abc then Aborted else
    if negb (2 ^ log2_up32 nn =? nn)%N then Aborted else
    Done (map (fun i => rmat_edge fuel nn (N.of_nat i)) (seq 0 m)).
End RMAT.
