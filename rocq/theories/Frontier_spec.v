(** Specification of the priority list: a plain list, in the order given by the comparison, without
    two equal elements. No hash set, no binary search. *)
From Verif Require Import Base Frontier_model.

Section Spec.
  Variable T : Type.
  Variable cmp : T -> T -> bool.
  Variable eqk : T -> T -> bool.

  (** What the C++ standard requires of [Compare] (strict weak order) and [KeyEqual]. *)
  Record strict_weak_order : Prop := {
    swo_irrefl : forall x, cmp x x = false;
    swo_trans : forall x y z, cmp x y = true -> cmp y z = true -> cmp x z = true;
    swo_incomp : forall x y z, cmp x y = false -> cmp y z = false -> cmp x z = false
  }.
  Record equivalence : Prop := {
    eqk_refl : forall x, eqk x x = true;
    eqk_sym : forall x y, eqk x y = true -> eqk y x = true;
    eqk_trans : forall x y z, eqk x y = true -> eqk y z = true -> eqk x z = true
  }.

  (** Insert after the last element that does not come after [x]. *)
  Fixpoint s_insert (x : T) (l : list T) : list T :=
    match l with
    | [] => [x]
    | y :: l' => if cmp x y then x :: l else y :: s_insert x l'
    end.
  Definition s_without (x : T) (l : list T) : list T := filter (fun y => negb (eqk x y)) l.

  Definition s_step (l : list T) (o : fop T) : res (fout T * list T) :=
    match o with
    | OpClear => Ok (OutUnit, [])
    | OpPush x =>
      match find (eqk x) l with
      | Some y => Ok (OutPush y false, l)
      | None => Ok (OutPush x true, s_insert x l)
      end
    | OpRemove x =>
      match find (eqk x) l with
      | Some y => Ok (OutNat 1, s_without x l)
      | None => Ok (OutNat 0, l)
      end
    | OpPop => match rev l with [] => UB | x :: r => Ok (OutElem x, rev r) end
    | OpTop => match rev l with [] => UB | x :: r => Ok (OutElem x, l) end
    | OpFind x => Ok (OutOpt (find (eqk x) l), l)
    | OpSize => Ok (OutNat (length l), l)
    | OpEmpty => Ok (OutBool (length l =? 0), l)
    | OpIterate => Ok (OutList l, l)
    end.

  Fixpoint s_run (l : list T) (ops : list (fop T)) : res (list (fout T)) :=
    match ops with
    | [] => Ok []
    | o :: ops' =>
      do (out, l') <- s_step l o;
      do outs <- s_run l' ops';
      Ok (out :: outs)
    end.

  (** The list after a history of operations (when no Pop or Top hits an empty list). *)
  Fixpoint s_state (l : list T) (ops : list (fop T)) : res (list T) :=
    match ops with
    | [] => Ok l
    | o :: ops' => do (_, l') <- s_step l o; s_state l' ops'
    end.

  (** No two equal elements. *)
  Definition distinct (l : list T) : Prop :=
    ForallOrdPairs (fun a b => eqk a b = false) l.
  (** No element comes strictly after (in the comparison) an element that follows it. *)
  Definition ordered (l : list T) : Prop :=
    ForallOrdPairs (fun a b => cmp b a = false) l.
End Spec.

Arguments s_insert {T}.
Arguments s_without {T}.
Arguments s_step {T}.
Arguments s_run {T}.
Arguments s_state {T}.
Arguments distinct {T}.
Arguments ordered {T}.
