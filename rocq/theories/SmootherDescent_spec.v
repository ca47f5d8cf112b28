(** How much a path bends. *)
From Coq Require Import Reals List.
From Verif Require Import Coords_model SmootherGrad_spec.
Local Open Scope R_scope.

(** The sum of the squared second differences of the samples; 0 for samples at equal distances on a line. *)
Fixpoint bend_energy (samples : list point) : R :=
  match samples with
  | a :: ((b :: c :: _) as r) => bend a b c + bend_energy r
  | _ => 0
  end.
