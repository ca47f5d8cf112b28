(** Property C142, when Hybrid A* tries a Reeds-Shepp connection. *)
From Coq Require Import Reals ZArith Lra Lia.
From Flocq Require Import Core BinarySingleNaN.
From Verif Require Import Base CoordsFloat_model StraightFloat_model CellFloat_proofs ConnectFloat_model ConnectFloat_spec ConnectFloat_proofs.
Local Open Scope R_scope.

(** Closer to the goal than ten it is always tried, without a random number being drawn; elsewhere one number is drawn. *)
Theorem C142_near : forall G (draw : G -> double * G) h g, is_finite h = true -> (B2R h < 10 -> d_connects draw h g = (true, g)) /\ (10 <= B2R h -> snd (d_connects draw h g) = snd (draw g)).
Proof. intros G draw h g F. split; intros H; [exact (connects_near draw h g F H)|rewrite connects_far by assumption; reflexivity]. Qed.
Print Assumptions C142_near.

(** It is tried exactly if the number drawn is below a threshold, which is ten over the square of the heuristic, up to a relative error of 2^-50. *)
Theorem C142_chance : forall G (draw : G -> double * G) h g, is_finite h = true -> 10 <= B2R h <= bpow radix2 400 -> is_finite (fst (draw g)) = true ->
  exists q, Rabs (q - chance (B2R h)) <= bpow radix2 (-50) * chance (B2R h) /\ (fst (d_connects draw h g) = true <-> B2R (fst (draw g)) < q).
Proof. intros G draw h g F H Fu. unfold chance. destruct (Rlt_dec (B2R h) 10); [exfalso; lra|]. exact (connects_chance draw h g F H Fu). Qed.
Print Assumptions C142_chance.

(** It is tried the less, the larger the heuristic: a number that is small enough for some value is small enough for every smaller value. *)
Theorem C142_monotone : forall G (draw : G -> double * G) h h' g, is_finite h = true -> is_finite h' = true -> B2R h <= B2R h' -> is_finite (fst (draw g)) = true -> 0 <= B2R (fst (draw g)) ->
  fst (d_connects draw h' g) = true -> fst (d_connects draw h g) = true.
Proof. intros G draw h h' g F F' L Fu Pu H. refine (connects_mono draw h h' g (snd (d_connects draw h' g)) F F' L Fu Pu _). rewrite <- H. apply surjective_pairing. Qed.
Print Assumptions C142_monotone.

(** From a state whose heuristic is infinite, because its cell cannot be reached from the goal, or is not a number, it is never tried. *)
Theorem C142_unreachable : forall G (draw : G -> double * G) h g, h = B754_nan \/ h = B754_infinity false -> is_finite (fst (draw g)) = true -> 0 <= B2R (fst (draw g)) ->
  fst (d_connects draw h g) = false.
Proof. intros G draw h g H F P. rewrite (connects_unknown draw h g H F P). reflexivity. Qed.
Print Assumptions C142_unreachable.

(** At twenty, where the chance is a fortieth, it is tried if the number drawn is 1/64 and not if it is a half. *)
Example C142_met : chance 20 = / 40 /\ B2R (d_of 20 0) = 20 /\ is_finite (d_of 20 0) = true /\
  fst (d_connects (fun u : double => (u, u)) (d_of 20 0) (d_of 1 (-6))) = true /\ fst (d_connects (fun u : double => (u, u)) (d_of 20 0) (d_of 1 (-1))) = false.
Proof.
  split; [unfold chance; destruct (Rlt_dec 20 10); [exfalso; lra|field]|]. destruct (int_double 20 ltac:(lia)) as [F E]. split; [exact E|]. split; [exact F|]. split; vm_compute; reflexivity.
Qed.
