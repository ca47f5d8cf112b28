(** Common vocabulary of the models: the outcome of a piece of C++ code. *)
From Coq Require Export List Arith ZArith Lia Bool.
From Coq Require Import ZifyBool ZifyNat ZifyN.
Export ListNotations.

Ltac Zify.zify_post_hook ::= Z.div_mod_to_equations.

(** Outcome of running code: a value, undefined behaviour (out-of-bounds access, [back()] of an empty
    vector, dereferencing [end()] or a null pointer), an exception, or exhaustion of the fuel that
    the model uses for unbounded loops. *)
Inductive res (A : Type) : Type :=
| Ok (a : A)
| UB
| Throw
| NoFuel.
Arguments Ok {A} a.
Arguments UB {A}.
Arguments Throw {A}.
Arguments NoFuel {A}.

Definition bind {A B} (r : res A) (f : A -> res B) : res B :=
  match r with
  | Ok a => f a
  | UB => UB
  | Throw => Throw
  | NoFuel => NoFuel
  end.

Definition rmap {A B} (f : A -> B) (r : res A) : res B := bind r (fun a => Ok (f a)).

Declare Scope res_scope.
Notation "'do' x <- r ; k" := (bind r (fun x => k))
  (at level 200, x pattern, r at level 100, k at level 200, right associativity) : res_scope.
Open Scope res_scope.

(** Reading element [i] of a [std::vector] (UB when out of range). *)
Definition vget {A} (v : list A) (i : nat) : res A :=
  match nth_error v i with
  | Some a => Ok a
  | None => UB
  end.

(** [std::vector::insert] before position [i] (UB when the iterator is past [end()]). *)
Definition vinsert {A} (v : list A) (i : nat) (a : A) : res (list A) :=
  if i <=? length v then Ok (firstn i v ++ a :: skipn i v) else UB.

(** [std::vector::erase] of position [i] (UB when out of range). *)
Definition verase {A} (v : list A) (i : nat) : res (list A) :=
  if i <? length v then Ok (firstn i v ++ skipn (S i) v) else UB.

(** Writing element [i] of an array (UB when out of range). *)
Definition vset {A} (v : list A) (i : nat) (a : A) : res (list A) :=
  if i <? length v then Ok (firstn i v ++ a :: skipn (S i) v) else UB.
