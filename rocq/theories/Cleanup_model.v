(** Model of [CleanupOutputString], /repo/planner/src/debug/profiler.h:106-123. Arrays of characters are lists. *)
From Coq Require Import Ascii.
From Verif Require Import Base.

Definition quote : ascii := """"%char.
Definition apostrophe : ascii := "'"%char.
Definition nul : ascii := "000"%char.

(** Lines 114-116: the match counter. [expr] is what remains of the source from [srcIndex] without its last character
    (bound [srcIndex + matchIndex < N - 1]), [remove] what remains of the text to remove without its last character
    (bound [matchIndex < K - 1]). *)
Fixpoint match_length (expr remove : list ascii) : nat :=
  match expr, remove with
  | a :: e, b :: r => if Ascii.eqb a b then S (match_length e r) else 0
  | _, _ => 0
  end.

(** Line 119: the character copied. *)
Definition unquote (c : ascii) : ascii := if Ascii.eqb c quote then apostrophe else c.

(** Lines 113-121: the characters written to [Data] in order; reading [expr] outside of its bounds is UB. [N] and [K]
    are the lengths of the arrays, with their terminating characters. *)
Fixpoint cleanup_loop (fuel : nat) (expr remove : list ascii) (src : nat) : res (list ascii) :=
  match fuel with
  | O => NoFuel
  | S k =>
    if src <? length expr then
      let m := match_length (skipn src (firstn (length expr - 1) expr)) (firstn (length remove - 1) remove) in
      let src' := if Nat.eqb m (length remove - 1) then src + m else src in
      match nth_error expr src' with
      | None => UB
      | Some c => do l <- cleanup_loop k expr remove (S src'); Ok (unquote c :: l)
      end
    else Ok []
  end.

(** Lines 109-122: [Data] starts as zeros; writing more than [N] characters is UB. *)
Definition cleanup (expr remove : list ascii) : res (list ascii) :=
  do l <- cleanup_loop (S (length expr)) expr remove 0;
  if length l <=? length expr then Ok (l ++ repeat nul (length expr - length l)) else UB.

(** Reading a C string from an array. *)
Fixpoint c_string (l : list ascii) : list ascii :=
  match l with
  | [] => []
  | c :: r => if Ascii.eqb c nul then [] else c :: c_string r
  end.
