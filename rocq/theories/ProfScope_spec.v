(** What a profile should look like: the records of nested scopes. *)
From Verif Require Import Base Profiler_model ProfScope_model.
Local Open Scope list_scope.

(** No timer is stopped by hand. *)
Fixpoint automatic (x : item) : Prop :=
  match x with
  | StopTimer => False
  | Inner _ body => (fix all l := match l with [] => True | i :: l' => automatic i /\ all l' end) body
  end.

(** [trace th lo hi l rs]: [rs] are the records of the scopes [l], one for each, in the order in which they end, and between the times [lo]
    and [hi]; those of inner scopes are within the time of the outer one, and each scope begins after the end of the one before. *)
Inductive trace (th : N) : Z -> Z -> list item -> list result -> Prop :=
| trace_nil lo hi : (lo <= hi)%Z -> trace th lo hi [] []
| trace_cons lo hi name body rest s e inner after :
    (lo <= s)%Z -> trace th s e body inner -> trace th e hi rest after ->
    trace th lo hi (Inner name body :: rest) (inner ++ Result name s e th :: after).

(** Two records of one thread: one after the other, or one within the other. *)
Definition laminar (r r' : result) : Prop :=
  (r_end r <= r_start r')%Z \/ (r_end r' <= r_start r)%Z \/
  (r_start r <= r_start r' /\ r_end r' <= r_end r)%Z \/ (r_start r' <= r_start r /\ r_end r <= r_end r')%Z.

(** The calls of [Stop] in a body, not counting those of inner timers. *)
Definition stops (body : list item) : nat := List.length (filter (fun x => match x with StopTimer => true | _ => false end) body).
(** The records that a scope and those within it should give: one for a scope without call of [Stop]. *)
Fixpoint expected (x : item) : nat :=
  match x with
  | StopTimer => 1
  | Inner _ body => (fix sum l := match l with [] => 0 | i :: l' => expected i + sum l' end) body + (if stops body =? 0 then 1 else 0)
  end.
