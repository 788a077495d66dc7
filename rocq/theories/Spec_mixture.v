(** What the effective-medium properties are stated with. *)
From Verif Require Import Spec M_refractive_index Spec_optics.
From Coquelicot Require Import Complex.
Open Scope R_scope.

(** A mixture of transparent constituents: inclusions of positive index [np] at
    volume fractions [vf], in a matrix of positive index [nm] that fills the
    rest. *)
Definition mixture (np : list R) (nm : R) (vf : list R) : Prop :=
  Forall (fun n => 0 < n) np /\ 0 < nm /\
  Forall (fun f => 0 <= f) vf /\ total vf <= 1 /\ length np = length vf.

(** Every constituent with its share of the volume, the matrix last. *)
Definition constituents (np : list R) (nm : R) (vf : list R) : list (R * R) :=
  combine (vf ++ [1 - total vf]) (np ++ [nm]).

(** The average of [g] of the index over the volume of the mixture. *)
Definition volume_average (g : R -> R) (parts : list (R * R)) : R :=
  total (map (fun p => let '(f, n) := p in f * g n) parts).

(** [n_eff] without the Maxwell-Garnett flag answered [n], a positive number
    that solves Bruggeman's equation (the library does not itself check what
    its root finder returned). *)
Definition bruggeman_index (fsolve : (C -> C) -> C) (np : list R) (nm : R)
  (vf : list R) (n : R) : Prop :=
  n_eff fsolve false (map RtoC np) [RtoC nm] vf = Ok (RtoC n) /\ 0 < n /\
  bruggeman (combine (vf ++ [1 - total vf]) (map RtoC (np ++ [nm]))) (RtoC n).

(** [n_eff] with the flag answered [n]. *)
Definition garnett_index (fsolve : (C -> C) -> C) (np nm phi n : R) : Prop :=
  n_eff fsolve true [RtoC np] [RtoC nm] [phi] = Ok (RtoC n).
