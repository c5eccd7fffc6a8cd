(* Specification vocabulary for C14-C16. *)
From Verif Require Import Base VSModel.

(* the mathematical object: a partial map from vertices below n to data, listed *)
Definition subset_of (n : nat) {A} (l : list (nat * A)) : Prop :=
  NoDup (map fst l) /\ Forall (fun e => fst e < n) l.

(* what a dense array of length n stores *)
Definition stored {A} (d : list (bool * A)) (v : nat) (x : A) : Prop := nth_error d v = Some (true, x).

(* V, as seen through its public observers, is the subset l *)
Definition shows {A} (dflt : A) (n : nat) (V : vset A) (l : list (nat * A)) : Prop :=
  vn V = n /\ size V = length l /\
  Permutation (vertexMap_calls dflt V) l /\
  (isDense V = true -> forall v, v < n -> (isIn dflt V v = true <-> In v (map fst l)) /\
                                          (forall x, In (v, x) l -> ithData dflt V v = x)).

(* a conversion history *)
Inductive conv := ToSparse | ToDense.
Definition convert {A} (dflt : A) (c : conv) (V : option (vset A)) : option (vset A) :=
  match V with
  | None => None
  | Some V => match c with ToSparse => toSparse V | ToDense => Some (toDense dflt V) end
  end.
Definition converts {A} (dflt : A) (h : list conv) (V : vset A) : option (vset A) :=
  fold_left (fun V c => convert dflt c V) h (Some V).

(* V was just constructed by one of the public constructors and holds the subset l *)
Definition built {A} (n : nat) (V : vset A) (l : list (nat * A)) : Prop :=
  subset_of n l /\
  ((V = vs_empty n /\ l = []) \/
   V = vs_sparse n l \/
   exists d, length d = n /\ (forall v x, stored d v x <-> In (v, x) l) /\
             (V = vs_dense n d \/ V = vs_dense_m n (length l) d)).

(* plain vertices as elements without data *)
Definition plain (l : list nat) : list (nat * unit) := map (fun v => (v, tt)) l.
