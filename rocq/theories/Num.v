(** Numeric prelude shared by the model files: exceptions as values, boolean
    comparisons on the reals, NaN as [None], and the few NumPy primitives the
    package uses.  No property of the package is stated here. *)
From Coq Require Export Reals List Bool Arith ZArith.
Export ListNotations.
Open Scope R_scope.

(** Python exceptions that structcol raises. *)
Inductive err := ValueError | KeyError | IndexError | TypeError | NameError
               | AttributeError | ZeroDivisionError
               | OutOfFuel (* not Python: the model's recursion bound; proved unreachable *).

(** A call returns a value or raises. *)
Inductive result (A : Type) := Ok (a : A) | Err (e : err).
Arguments Ok {A} a.
Arguments Err {A} e.

Definition bind {A B} (r : result A) (f : A -> result B) : result B :=
  match r with Ok a => f a | Err e => Err e end.

(** [x < y], [x <= y], [x == y] on floats, NaN excluded. *)
Definition Rltb (x y : R) : bool := if Rlt_dec x y then true else false.
Definition Rleb (x y : R) : bool := if Rle_dec x y then true else false.
Definition Reqb (x y : R) : bool := if Req_EM_T x y then true else false.

(** A float that may be NaN. *)
Definition num := option R.
Definition nan : num := None.

(** Comparisons with a NaN operand are False (IEEE 754, as NumPy does). *)
Definition nltb (x y : num) : bool :=
  match x, y with Some a, Some b => Rltb a b | _, _ => false end.

(** Lift a total operation to NaN-able numbers (NaN propagates). *)
Definition nmap (f : R -> R) (x : num) : num := option_map f x.
Definition nmap2 (f : R -> R -> R) (x y : num) : num :=
  match x, y with Some a, Some b => Some (f a b) | _, _ => None end.

(** [np.nan_to_num]. *)
Definition nan_to_num (x : num) : R := match x with Some a => a | None => 0 end.

(** [np.sum] of a 1-D array. *)
Definition Rsum (l : list R) : R := fold_right Rplus 0 l.

(** [np.floor] (as an integer). *)
Definition floorZ (x : R) : Z := Int_part x.

(** [np.cumsum]. *)
Fixpoint cumsum_from (acc : R) (l : list R) : list R :=
  match l with [] => [] | x :: t => (acc + x) :: cumsum_from (acc + x) t end.
Definition cumsum (l : list R) : list R := cumsum_from 0 l.

(** Elementwise combination of two arrays of the same length. *)
Fixpoint map2 {A B C} (f : A -> B -> C) (l : list A) (m : list B) : list C :=
  match l, m with a :: l', b :: m' => f a b :: map2 f l' m' | _, _ => [] end.

Fixpoint map3 {A B C D} (f : A -> B -> C -> D)
  (l : list A) (m : list B) (n : list C) : list D :=
  match l, m, n with
  | a :: l', b :: m', c :: n' => f a b c :: map3 f l' m' n'
  | _, _, _ => [] end.

(** [np.argmax] of a 0/1 column: the position of the first maximal entry. *)
Fixpoint max_list (l : list nat) : nat :=
  match l with [] => 0%nat | x :: t => Nat.max x (max_list t) end.
Fixpoint index_of (x : nat) (l : list nat) : nat :=
  match l with
  | [] => 0%nat
  | y :: t => if Nat.eqb x y then 0%nat else S (index_of x t) end.
Definition argmax (l : list nat) : nat := index_of (max_list l) l.

(** [np.vstack([np.zeros(ntraj), b])] followed by argmax on the event axis. *)
Definition b2n (b : bool) : nat := if b then 1%nat else 0%nat.
Definition argmax_padded (b : list bool) : nat := argmax (0%nat :: map b2n b).

(** [scipy.integrate.trapezoid(y, x)]. *)
Fixpoint trapezoid (y x : list R) : R :=
  match y, x with
  | y0 :: yt, x0 :: xt =>
      match yt, xt with
      | y1 :: _, x1 :: _ => (x1 - x0) * (y0 + y1) / 2 + trapezoid yt xt
      | _, _ => 0
      end
  | _, _ => 0
  end.

(** Float division; a zero divisor gives NaN or an infinity, both [None]. *)
Definition ndiv (a b : R) : num := if Reqb b 0 then None else Some (a / b).

(** [np.max([a, b])]. *)
Definition max2 (a b : R) : R := Rmax a b.
