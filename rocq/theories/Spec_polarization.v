(** Vocabulary of the statements about detector_polarization_phase.py. *)
From Verif Require Export Spec M_polarization.
Open Scope R_scope.

(** The six real components of a field and its squared length. *)
Definition components : list (field -> R) :=
  [(fun f => fst (fx f)); (fun f => snd (fx f)); (fun f => fst (fy f));
   (fun f => snd (fy f)); (fun f => fst (fz f)); (fun f => snd (fz f))].
Definition strength (f : field) : R :=
  Cmod (fx f) ^ 2 + Cmod (fy f) ^ 2 + Cmod (fz f) ^ 2.

(** The sum of [g i] over the trajectories reflected ([I i] is the event of
    reflection, 0 for none), and their number. *)
Definition over_reflected (n : nat) (I : nat -> nat) (g : nat -> R) : R :=
  total (map (fun i => if Nat.eqb (I i) 0 then 0 else g i) (seq 0 n)).
Definition reflected (n : nat) (I : nat -> nat) : nat :=
  length (filter (fun i => negb (Nat.eqb (I i) 0)) (seq 0 n)).

(** [n] trajectories of [nev] events: fields [F i], event of reflection [I i],
    reflectance [r i]. *)
Definition field_run (n nev : nat) (F : nat -> list field) (I : nat -> nat) (r : nat -> R) : Prop :=
  (0 < n)%nat /\ forall i, (i < n)%nat -> length (F i) = S nev /\ (I i <= nev)%nat /\ 0 <= r i.
(** The field of trajectory [i] when it is reflected. *)
Definition out_field (F : nat -> list field) (I : nat -> nat) (i : nat) : field :=
  nth (I i) (F i) fzero.

Definition phase_fields (n : nat) (F : nat -> list field) (I : nat -> nat) (r : nat -> R) :=
  calc_refl_phase_fields (map F (seq 0 n)) (map I (seq 0 n)) (map r (seq 0 n)).
Definition co_cross (n : nat) (F : nat -> list field) (I : nat -> nat) (r : nat -> R) (det : R) :=
  calc_refl_co_cross_fields (map F (seq 0 n)) (map I (seq 0 n)) (map r (seq 0 n)) det.

(** All fields multiplied by the complex number [u]. *)
Definition fturn (u : C) (f : field) : field :=
  (Cmult u (fx f), Cmult u (fy f), Cmult u (fz f)).
