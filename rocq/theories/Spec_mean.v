(** Means over independent random phases, for C153. *)
From Coq Require Import Reals List.
From Coquelicot Require Import Coquelicot.
Open Scope R_scope.

(** [t] with entry [k] replaced by [x]. *)
Definition upd (t : nat -> R) (k : nat) (x : R) : nat -> R :=
  fun i => if Nat.eqb i k then x else t i.

(** [m] is the mean of [F t] when t 0, ..., t (n-1) are independent and
    uniform in [0, 1]: the iterated integral, entry n-1 first; what is left
    must not depend on [t] any more. *)
Fixpoint is_mean (n : nat) (F : (nat -> R) -> R) (m : R) : Prop :=
  match n with
  | O => forall t, F t = m
  | S k => exists G : (nat -> R) -> R,
      (forall t, is_RInt (fun x => F (upd t k x)) 0 1 (G t)) /\ is_mean k G m
  end.
