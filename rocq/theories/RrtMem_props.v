(** C103: the random planners follow no dangling pointer, and a planner that has searched before behaves as a new one. *)
From Coq Require Import ZArith Reals.
From Verif Require Import Base RealBase Frontier_spec TreeMem_model TreeMem_spec TreeMem_proofs Rrt_model Rrt_spec Rrt_proofs RrtStar_proofs RrtAny_proofs RrtMem_model RrtMem_spec RrtMem_proofs.

(** What a user sees of a search of RRT (status, path, number of nodes, iterations) does not depend on earlier searches: it is what the memoryless
    search of Rrt_model.v gives. *)
Theorem C103_rrt_search_again :
  forall V P eqv (final : P -> V) m steer valid issol sample nearest maxIteration maxNode init,
  equivalence V eqv -> rrt_used eqv final m -> answers nearest ->
  seen (p_rrt_search eqv final steer valid issol sample nearest maxIteration maxNode m init) =
  expected (rrt_search eqv final steer valid issol sample nearest maxIteration maxNode init).
Proof. intros. now apply rrt_same. Qed.
Print Assumptions C103_rrt_search_again.

(** The same for RRT*. *)
Theorem C103_star_search_again :
  forall V P C eqv (final : P -> V) (zero : C) add ltb m steer valid issol sample nearest maxIteration maxNode connect plength log knn init,
  equivalence V eqv -> star_used eqv final zero add ltb m -> answers nearest -> answers_all knn ->
  seen (p_star_search eqv final steer valid issol sample nearest maxIteration maxNode connect plength zero add ltb log knn m init) =
  expected (star_search eqv final steer valid issol sample nearest maxIteration maxNode connect plength zero add ltb log knn init).
Proof. intros. now apply star_same. Qed.
Print Assumptions C103_star_search_again.

Lemma decides_equivalence {V} (eqv : V -> V -> bool) : decides eqv -> equivalence V eqv.
Proof.
  intros D. split; [intros x; now apply D|intros x y H; apply D in H; now apply D|intros x y z H1 H2; apply D in H1, H2; apply D; congruence].
Qed.

(** So a search of a planner in use and [GetPath] after it access no destroyed node, and give a path from the start to a solution along accepted
    motions, or report Failure and an empty path. *)
Theorem C103_rrt_memory_safe :
  forall V P eqv (final : P -> V) m steer valid issol sample nearest maxIteration maxNode init,
  decides eqv -> rrt_used eqv final m -> answers nearest -> (0 <= maxIteration < 2147483647)%Z -> (0 <= maxNode)%Z ->
  exists s l k n, seen (p_rrt_search eqv final steer valid issol sample nearest maxIteration maxNode m init) = Ok (s, l, k, n) /\
    (Z.of_nat k <= maxNode + 1)%Z /\
    if s then exists g, path_between (accepted final steer valid) init g l /\ issol g = true else l = [].
Proof.
  intros V P eqv final m steer valid issol sample nearest mi mn init D Hm An M1 M2.
  rewrite (C103_rrt_search_again V P eqv final m steer valid issol sample nearest mi mn init (decides_equivalence eqv D) Hm An).
  destruct (rrt_terminates eqv D final steer valid issol sample nearest mi mn init An M1 M2) as (s & t & o & n & E & _ & L & _). rewrite E. unfold expected. cbn [bind].
  destruct s.
  - destruct (rrt_success eqv D _ _ _ _ _ _ _ _ _ _ _ _ E) as (l & g & El & Hl & Hg). rewrite El. cbn [bind]. exists true, l, (length t), n. eauto 10.
  - rewrite (rrt_failure eqv D _ _ _ _ _ _ _ _ _ _ _ _ E). cbn [bind]. exists false, [], (length t), n. auto.
Qed.
Print Assumptions C103_rrt_memory_safe.

Theorem C103_star_memory_safe :
  forall V P eqv (final : P -> V) m steer valid issol sample nearest maxIteration maxNode connect plength log knn init,
  decides eqv -> star_used eqv final 0%R Rplus Rltb m -> answers nearest -> answers_all knn -> (0 <= maxIteration < 2147483647)%Z -> (0 <= maxNode)%Z ->
  exists s l k n,
    seen (p_star_search eqv final steer valid issol sample nearest maxIteration maxNode connect plength 0%R Rplus Rltb log knn m init) = Ok (s, l, k, n) /\
    (Z.of_nat k <= maxNode + 1)%Z /\
    if s then nth_error l 0 = Some init /\ exists g, nth_error l (length l - 1) = Some g /\ issol g = true else l = [].
Proof.
  intros V P eqv final m steer valid issol sample nearest mi mn connect plength log knn init D Hm An Aa M1 M2.
  rewrite (C103_star_search_again V P R eqv final 0%R Rplus Rltb m steer valid issol sample nearest mi mn connect plength log knn init (decides_equivalence eqv D) Hm An Aa).
  destruct (star_terminates eqv D final steer valid issol sample nearest mi mn connect plength log knn init An Aa M1 M2) as (s & t & o & n & E & _ & L & _).
  rewrite E. unfold expected. cbn [bind].
  destruct s.
  - destruct (star_ends eqv D _ _ _ _ _ _ _ _ _ _ _ _ _ _ _ _ An Aa E) as (l & g & El & H1 & H2 & H3). rewrite El. cbn [bind]. exists true, l, (length t), n. eauto 10.
  - rewrite (star_failure eqv D _ _ _ _ _ _ _ _ _ _ _ _ _ _ _ _ E). cbn [bind]. exists false, [], (length t), n. auto.
Qed.
Print Assumptions C103_star_memory_safe.

(** The same for an [Equal] that is an equivalence but not equality, and for costs in any arithmetic without infinity. *)
Theorem C103_rrt_memory_safe_any_equality :
  forall V P eqv (final : P -> V) m steer valid issol sample nearest maxIteration maxNode init,
  equivalence V eqv -> rrt_used eqv final m -> answers nearest -> (0 <= maxIteration < 2147483647)%Z -> (0 <= maxNode)%Z ->
  exists s l k n, seen (p_rrt_search eqv final steer valid issol sample nearest maxIteration maxNode m init) = Ok (s, l, k, n) /\
    (Z.of_nat k <= maxNode + 1)%Z /\
    if s then exists g v, path_between (accepted final steer valid) init g l /\ issol v = true /\ eqv g v = true else l = [].
Proof.
  intros V P eqv final m steer valid issol sample nearest mi mn init D Hm An M1 M2.
  rewrite (C103_rrt_search_again V P eqv final m steer valid issol sample nearest mi mn init D Hm An).
  assert (R : forall a, eqv a a = true) by (intros a; apply D).
  set (E := accepted final steer valid). assert (K : forall a it, True -> valid (steer a (sample it)) = true -> True /\ E a (final (steer a (sample it)))) by (intros a it _ H; split; [exact I|]; exists (sample it); auto).
  destruct (any_terminates eqv final steer valid issol sample nearest mi mn init E (fun _ => True) K I (fun a _ => R a) An M1 M2) as (s & t & o & n & H & _ & L & _).
  rewrite H. unfold expected. cbn [bind]. destruct s.
  - destruct (any_success eqv final steer valid issol sample nearest mi mn init E (fun _ => True) K I t o n H) as (l & g & El & Hl & _ & (v & _ & Hv & Hg)).
    rewrite El. cbn [bind]. exists true, l, (length t), n. split; [reflexivity|]. split; [exact L|]. exists g, v. split; [exact Hl|]. split; [exact Hv|]. destruct Hg as [->|Hg]; auto.
  - pose proof (loop_visited _ _ _ _ _ _ _ _ _ _ _ (visited_start _ _) H) as X. cbn beta iota in X. destruct X as (-> & _). cbn [get_path bind]. exists false, [], (length t), n. auto.
Qed.
Print Assumptions C103_rrt_memory_safe_any_equality.

Theorem C103_star_memory_safe_any_equality :
  forall V P C eqv (final : P -> V) (zero : C) add ltb m steer valid issol sample nearest maxIteration maxNode connect plength log knn init,
  equivalence V eqv -> star_used eqv final zero add ltb m -> answers nearest -> answers_all knn -> (0 <= maxIteration < 2147483647)%Z -> (0 <= maxNode)%Z ->
  exists s l k n,
    seen (p_star_search eqv final steer valid issol sample nearest maxIteration maxNode connect plength zero add ltb log knn m init) = Ok (s, l, k, n) /\
    (Z.of_nat k <= maxNode + 1)%Z /\
    if s then nth_error l 0 = Some init /\ exists g v, nth_error l (length l - 1) = Some g /\ issol v = true /\ eqv g v = true else l = [].
Proof.
  intros V P C eqv final zero add ltb m steer valid issol sample nearest mi mn connect plength log knn init D Hm An Aa M1 M2.
  rewrite (C103_star_search_again V P C eqv final zero add ltb m steer valid issol sample nearest mi mn connect plength log knn init D Hm An Aa).
  assert (R : forall a, eqv a a = true) by (intros a; apply D).
  pose proof (fun a (_ : True) => R a) as R1. pose proof (fun (a : V) (it : Z) (_ : True) (_ : valid (steer a (sample it)) = true) => I) as K.
  destruct (star_any_terminates eqv final steer valid issol sample nearest mi mn connect plength zero add ltb log knn init (fun _ => True) K I R1 An Aa M1 M2) as (s & t & o & n & H & _ & L & _).
  rewrite H. unfold expected. cbn [bind]. destruct s.
  - destruct (star_any_ends eqv final steer valid issol sample nearest mi mn connect plength zero add ltb log knn init (fun _ => True) K I R1 An Aa t o n H)
      as (l & g & El & H1 & H2 & _ & (v & _ & Hv & Hg)).
    rewrite El. cbn [bind]. exists true, l, (length t), n. split; [reflexivity|]. split; [exact L|]. split; [exact H1|]. exists g, v. split; [exact H2|]. split; [exact Hv|]. destruct Hg as [->|Hg]; auto.
  - pose proof (loop_visited _ _ _ _ _ _ _ _ _ _ _ (visited_start _ _) H) as X. cbn beta iota in X. destruct X as (-> & _). cbn [get_path bind]. exists false, [], (length t), n. auto.
Qed.
Print Assumptions C103_star_memory_safe_any_equality.

(** A planner on the natural numbers that searches from 0 to 9, then from 9 to 4: the second search frees the first tree, its nodes are at new
    addresses, and it gives the path a new planner would give. *)
Definition step_to (a q : nat) : nat * nat := (a, q).
Definition pick_of (l : list nat) (d : nat) (it : Z) : nat := nth (Z.to_nat it) l d.
Definition near_of (it : Z) : list nat -> nat -> nat := nat_knn1.
Definition first_search := p_rrt_search Nat.eqb snd step_to (fun p => negb ((fst p <? 5) && (5 <? snd p))) (Nat.eqb 9) (pick_of [3; 9; 5; 3] 9) near_of 100 100
  (p_new None) 0%nat.
Lemma first_facts : match first_search with Ok (s, m, _) => s = true /\ p_path m = Ok [0; 3; 5; 9]%nat /\ t_alive (p_tree m) = [0; 1; 2; 3]%nat | _ => False end.
Proof. vm_compute. auto. Qed.
Definition second_search m := p_rrt_search Nat.eqb snd step_to (fun _ => true) (Nat.eqb 4) (pick_of [7] 4) near_of 100 100 m 9%nat.
Example C103_case : exists m n, first_search = Ok (true, m, n) /\ p_path m = Ok [0; 3; 5; 9]%nat /\ t_alive (p_tree m) = [0; 1; 2; 3]%nat /\
  rrt_used Nat.eqb snd m /\ answers near_of /\ seen (second_search m) = Ok (true, [9; 7; 4], 3, 2%Z)%nat.
Proof.
  pose proof first_facts as F. destruct first_search as [[[s m] n]| | |] eqn:E; try contradiction. destruct F as (-> & F1 & F2). exists m, n.
  assert (An : answers near_of) by (intros it l q Hl; now apply nat_knn_range).
  assert (Hm : rrt_used Nat.eqb snd m) by (eapply rrt_again; [constructor|exact An|exact E]).
  split; auto. split; auto. split; auto. split; auto. split; auto.
  assert (De : equivalence nat Nat.eqb) by (apply decides_equivalence; intros a b; apply Nat.eqb_eq).
  unfold second_search. rewrite (C103_rrt_search_again nat (nat * nat) Nat.eqb snd m _ _ _ _ _ _ _ _ De Hm An). vm_compute. reflexivity.
Qed.
(** The nodes of the second search are at the addresses 4 and following. *)
Example C103_addresses : match first_search with
  | Ok (_, m, _) => match second_search m with Ok (_, m', _) => t_alive (p_tree m') = [4; 5; 6]%nat /\ p_path m' = Ok [9; 7; 4]%nat | _ => False end
  | _ => False end.
Proof. vm_compute. auto. Qed.
