(** What a user expects of the random tree planners. *)
From Coq Require Import ZArith Reals.
From Verif Require Import Base RealBase Coords_model Straight_model Straight_spec Rrt_model.

(** Each element of the list is related to the next one. *)
Definition linked {V} (E : V -> V -> Prop) (l : list V) : Prop :=
  forall i a b, nth_error l i = Some a -> nth_error l (S i) = Some b -> E a b.

(** A path from [a] to [b] whose consecutive states are related by [E]. *)
Definition path_between {V} (E : V -> V -> Prop) (a b : V) (l : list V) : Prop :=
  nth_error l 0 = Some a /\ nth_error l (length l - 1) = Some b /\ linked E l.

(** [Equal] is equality. *)
Definition decides {V} (eqv : V -> V -> bool) : Prop := forall a b, eqv a b = true <-> a = b.

(** The k-d tree answers with one of its points. *)
Definition answers {V} (nearest : Z -> list V -> V -> nat) : Prop :=
  forall it l q, l <> [] -> (nearest it l q < length l)%nat.

Definition answers_all {V} (knn : Z -> list V -> V -> nat -> list nat) : Prop :=
  forall it l q n i, In i (knn it l q n) -> (i < length l)%nat.

(** A route from [init] along connections that the validator accepts, and its length. *)
Inductive route {V P} (connect : V -> V -> P) (valid : P -> bool) (plength : P -> R) (init : V) : V -> R -> Prop :=
| route_start : route connect valid plength init init 0%R
| route_step a b c : route connect valid plength init a c -> valid (connect a b) = true ->
    route connect valid plength init b (c + plength (connect a b))%R.

(** The length of the branch of the tree that leads to a node. *)
Inductive branch {V P I} (connect : V -> V -> P) (plength : P -> R) (t : tree V I) : nat -> R -> Prop :=
| branch_root k n : nth_error t k = Some n -> tn_parent n = None -> branch connect plength t k 0%R
| branch_child k n p m c : nth_error t k = Some n -> tn_parent n = Some p -> nth_error t p = Some m ->
    branch connect plength t p c ->
    branch connect plength t k (c + plength (connect (tn_state m) (tn_state n)))%R.

(** The trees that a search goes through: at the start of each iteration. *)
Inductive visited {V I} (body : Z -> tree V I -> res (tree V I * option nat)) (start : tree V I) :
  Z -> tree V I -> Prop :=
| visited_start : visited body start 0 start
| visited_next c t t' : visited body start c t -> body c t = Ok (t', None) -> visited body start (c + 1) t'.

(** The state proposed by an iteration: the end of the accepted motion, if any. *)
Definition proposes {V P} (final : P -> V) (steer : V -> V -> P) (valid : P -> bool) (sample : Z -> V)
  (nearest : Z -> list V -> V -> nat) (it : Z) (l : list V) (v : V) : Prop :=
  exists a, nth_error l (nearest it l (sample it)) = Some a /\
    valid (steer a (sample it)) = true /\ v = final (steer a (sample it)).

(** The k-d tree is exact: it returns a nearest point, and a query for several points returns it too. *)
Definition exact_neighbours (nearest : Z -> list point -> point -> nat) (knn : Z -> list point -> point -> nat -> list nat) : Prop :=
  (forall it l q, l <> [] -> exists a, nth_error l (nearest it l q) = Some a /\
     forall b, In b l -> (distance q a <= distance q b)%R) /\
  (forall it l q n, l <> [] -> (1 <= n)%nat -> In (nearest it l q) (knn it l q n)).

(** [b] was reached from [a] by a motion of the planner that the validator accepted. *)
Definition accepted {V P} (final : P -> V) (steer : V -> V -> P) (valid : P -> bool) (a b : V) : Prop :=
  exists q, valid (steer a q) = true /\ final (steer a q) = b.

(** The validator accepts the connection from [a] to [b]. *)
Definition connected {V P} (connect : V -> V -> P) (valid : P -> bool) (a b : V) : Prop := valid (connect a b) = true.

(** Each node records the cost of its parent plus the length of the connection. *)
Definition local_costs {V P} (connect : V -> V -> P) (plength : P -> R) (t : tree V (@sinfo P R)) : Prop :=
  forall k n, nth_error t k = Some n ->
  match tn_parent n with
  | None => snd (tn_info n) = Some 0%R
  | Some p => exists m c, nth_error t p = Some m /\ snd (tn_info m) = Some c /\
      snd (tn_info n) = Some (c + plength (connect (tn_state m) (tn_state n)))%R
  end.

(** A set of states that accepted motions do not leave, and on which [Equal] is reflexive: for doubles, the finite ones. *)
Definition comparable {V P} (eqv : V -> V -> bool) (final : P -> V) (steer : V -> V -> P) (valid : P -> bool) (sample : Z -> V) (G : V -> Prop) : Prop :=
  (forall a, G a -> eqv a a = true) /\
  (forall a it, G a -> valid (steer a (sample it)) = true -> G (final (steer a (sample it)))).

(** No two states of the list are equal for [Equal]. *)
Definition all_different {V} (eqv : V -> V -> bool) (l : list V) : Prop :=
  forall i j a b, (i < j)%nat -> nth_error l i = Some a -> nth_error l j = Some b -> eqv a b = false.

(** The validator accepts the connection from a candidate to each state that is proposed. *)
Definition some_candidate {V P} (final : P -> V) (steer : V -> V -> P) (valid : P -> bool) (sample : Z -> V) (nearest : Z -> list V -> V -> nat)
  (connect : V -> V -> P) (log : nat -> nat) (knn : Z -> list V -> V -> nat -> list nat) (G : V -> Prop) : Prop :=
  forall it l a, (forall x, In x l -> G x) -> nth_error l (nearest it l (sample it)) = Some a -> valid (steer a (sample it)) = true ->
  exists i b, In i (knn it l (final (steer a (sample it))) (Nat.max 1 (log (length l)))) /\ nth_error l i = Some b /\
    valid (connect b (final (steer a (sample it)))) = true.
