(** C09-C11: helpers of structcol/__init__.py.  Proofs in L_init.v.  NaN is
    [None]. *)
From Coq Require Import Lra Lia.
From Verif Require Import Spec Num M_init L_init.
Open Scope R_scope.

(** C09 *)
Theorem C09_refraction_snell : forall n1 n2 t t2,
  0 < n2 -> refraction t n1 n2 = Some t2 ->
  - (PI / 2) <= t2 <= PI / 2 /\ snell n1 t n2 t2.
Proof. exact refraction_some. Qed.
Print Assumptions C09_refraction_snell.

(** NaN exactly when no angle satisfies Snell's law. *)
Theorem C09_refraction_nan : forall n1 n2 t,
  0 < n2 -> (refraction t n1 n2 = None <-> ~ exists t2, snell n1 t n2 t2).
Proof. exact refraction_none. Qed.
Print Assumptions C09_refraction_nan.

Theorem C09_refraction_roundtrip : forall n1 n2 t t2,
  0 < n1 -> 0 < n2 -> - (PI / 2) <= t <= PI / 2 ->
  refraction t n1 n2 = Some t2 -> refraction t2 n2 n1 = Some t.
Proof. exact refraction_roundtrip. Qed.
Print Assumptions C09_refraction_roundtrip.

Theorem C09_refraction_same_medium : forall n t,
  0 < n -> - (PI / 2) <= t <= PI / 2 -> refraction t n n = Some t.
Proof. exact refraction_same. Qed.
Print Assumptions C09_refraction_same_medium.

(** C10: [normalize_spec] is in Spec.v. *)
Theorem C10_normalize : forall return_nan vs,
  Forall2 (normalize_spec return_nan) vs (normalize return_nan vs).
Proof. exact normalize_correct. Qed.
Print Assumptions C10_normalize.

(** C11: rows are events, columns trajectories. *)
Theorem C11_select_events : forall rows events,
  Forall (fun r => length r = length events) rows ->
  Forall (fun e => (e <= Z.of_nat (length rows))%Z) events ->
  exists out, select_events rows events = Ok out
    /\ length out = length events
    /\ forall t, (t < length events)%nat ->
         nth t out 0 = if (nth t events 0 <=? 0)%Z then 0
                       else nth t (nth (Z.to_nat (nth t events 0%Z - 1)) rows []) 0.
Proof. exact select_events_spec. Qed.
Print Assumptions C11_select_events.

Theorem C11_select_events_out_of_range : forall rows events i,
  (i < length events)%nat -> (nth i events 0 > Z.of_nat (length rows))%Z ->
  select_events rows events = Err IndexError.
Proof. intros rows events i. exact (select_from_rejects rows events 0 i). Qed.
Print Assumptions C11_select_events_out_of_range.

(** * Non-vacuity *)
Example init_ex_refraction : refraction 0 1 (3 / 2) = Some 0.
Proof.
  unfold refraction. rewrite sin_0, Rmult_0_r, Rabs_R0.
  unfold Rltb. destruct (Rlt_dec 1 0); [lra|]. now rewrite asin_0.
Qed.
Example init_ex_select : select_events [[1; 2]; [3; 4]] [2; 0]%Z = Ok [3; 0].
Proof. reflexivity. Qed.
Example init_ex_select_hyp :
  Forall (fun r : list R => length r = 2%nat) [[1; 2]; [3; 4]]
  /\ Forall (fun e => (e <= 2)%Z) [2; 0]%Z.
Proof. split; repeat constructor; lia. Qed.
