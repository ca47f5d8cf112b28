(** The sampling of the path of Hybrid A* in IEEE double precision, /repo/planner/src/algo/hybrid_a_star.cpp:267-291: [sample] of [Hybrid_model.v]
    with the arithmetic of the code. *)
From Coq Require Import ZArith.
From Flocq Require Import BinarySingleNaN.
From Verif Require Import Base CoordsFloat_model StraightFloat_model.
Local Open Scope Z_scope.

(** [std::set<double>::insert]. *)
Fixpoint d_set_insert (x : double) (l : list double) : list double :=
  match l with
  | [] => [x]
  | y :: r => if Bltb x y then x :: l else if Bltb y x then y :: d_set_insert x r else l
  end.

(** hybrid_a_star.cpp:271-273. *)
Definition d_cusp_set (cusps : list double) : list double := d_set_insert d_one (d_set_insert d_zero (fold_left (fun s x => d_set_insert x s) cusps [])).

(** hybrid_a_star.cpp:274, the conversion of the argument of [reserve] to an unsigned integer of 64 bits: undefined unless the truncated value
    is one. The exceptions of [reserve] for lack of memory are not modelled. *)
Definition d_fits_size (x : double) : bool := Bltb (d_of (-1) 0) x && Bltb x (d_of 1 64).

(** hybrid_a_star.cpp:276-287: [its] are the elements from [cuspRatioIt] on; dereferencing the end is undefined. *)
Fixpoint d_sample_loop (fuel : nat) (total step len : double) (its ratios : list double) (marks : list nat) : res (list double * list nat) :=
  if Bleb len total then
    match fuel with
    | O => NoFuel
    | S k =>
        match its with
        | [] => UB
        | c :: its' =>
            let cuspLength := d_mul c total in
            if Bleb (d_sub cuspLength (d_div step (d_of 2 0))) len && Bltb len (d_add cuspLength (d_div step (d_of 2 0)))
            then d_sample_loop k total step (d_add len step) its' (ratios ++ [c]) (marks ++ [length ratios])
            else d_sample_loop k total step (d_add len step) its (ratios ++ [d_div len total]) marks
        end
    end
  else Ok (ratios, marks).
(** hybrid_a_star.cpp:269-287: the ratios and the indices of the cusps. *)
Definition d_sample (fuel : nat) (total step : double) (cusps : list double) : res (list double * list nat) :=
  let set := d_cusp_set cusps in
  if d_fits_size (d_add (d_div total step) (d_of (Z.of_nat (length set)) 0))
  then d_sample_loop fuel total step d_zero set [] []
  else UB.
