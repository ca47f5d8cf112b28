(** C01: the priority list behaves like a sorted list without duplicates. *)
From Verif Require Import Base Frontier_model Frontier_spec Frontier_proofs.

(** Every history of operations on a new frontier produces the outputs of the list specification
    (undefined behaviour exactly when the specification pops or reads the top of an empty list). *)
Theorem C01_frontier_refines_sorted_list :
  forall (T : Type) (cmp eqk : T -> T -> bool),
    strict_weak_order T cmp -> equivalence T eqk ->
    forall ops, f_run cmp eqk f_empty ops = s_run cmp eqk [] ops.
Proof. exact @f_run_refines_empty. Qed.
Print Assumptions C01_frontier_refines_sorted_list.

(** After every history the specification list is in order and has no two equal elements. *)
Theorem C01_frontier_ordered_distinct :
  forall (T : Type) (cmp eqk : T -> T -> bool),
    strict_weak_order T cmp -> equivalence T eqk ->
    forall ops l, s_state cmp eqk [] ops = Ok l -> ordered cmp l /\ distinct eqk l.
Proof. exact @s_state_inv_empty. Qed.
Print Assumptions C01_frontier_ordered_distinct.

(** The element at the top is outranked by no stored element. *)
Theorem C01_frontier_top_is_best :
  forall (T : Type) (cmp eqk : T -> T -> bool),
    strict_weak_order T cmp ->
    forall l x r, ordered cmp l /\ distinct eqk l -> rev l = x :: r -> forall y, In y l -> cmp x y = false.
Proof. exact @s_top_max. Qed.
Print Assumptions C01_frontier_top_is_best.

(** A pushed element is placed before exactly the elements that strictly come after it, so that among
    elements of equal priority it is the one closest to the top. *)
Theorem C01_frontier_push_position :
  forall (T : Type) (cmp eqk : T -> T -> bool),
    strict_weak_order T cmp ->
    forall x l, exists l1 l2, s_insert cmp x l = l1 ++ x :: l2 /\ l = l1 ++ l2 /\
      (ordered cmp l /\ distinct eqk l ->
       (forall y, In y l2 -> cmp x y = true) /\ (forall y, In y l1 -> cmp x y = false)).
Proof. exact @s_insert_behind. Qed.
Print Assumptions C01_frontier_push_position.

(** Non-vacuity: keyed priorities (key, priority) as used by the searches. *)
Definition ex_cmp (a b : nat * nat) : bool := snd b <? snd a.
Definition ex_eqk (a b : nat * nat) : bool := fst a =? fst b.
Example ex_swo : strict_weak_order (nat * nat) ex_cmp.
Proof. unfold ex_cmp. split; intros; lia. Qed.
Example ex_equiv : equivalence (nat * nat) ex_eqk.
Proof. unfold ex_eqk. split; intros; lia. Qed.
Example ex_run :
  f_run ex_cmp ex_eqk f_empty
    [OpPush (1,5); OpPush (2,7); OpPush (3,5); OpPush (1,2); OpRemove (2,0); OpPush (4,6); OpPush (5,5); OpIterate;
     OpPop; OpPop; OpFind (1,0); OpSize; OpTop; OpPop; OpPop; OpEmpty]
  = Ok [OutPush (1,5) true; OutPush (2,7) true; OutPush (3,5) true; OutPush (1,5) false; OutNat 1;
        OutPush (4,6) true; OutPush (5,5) true; OutList [(4,6); (1,5); (3,5); (5,5)];
        OutElem (5,5); OutElem (3,5); OutOpt (Some (1,5)); OutNat 2; OutElem (1,5); OutElem (1,5); OutElem (4,6);
        OutBool true].
Proof. vm_compute. reflexivity. Qed.
