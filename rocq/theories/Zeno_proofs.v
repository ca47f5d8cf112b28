(** A state space for the theorems about infinite searches: steps that get shorter and shorter. It is an example, not code of
    /repo. *)
From Coq Require Import Reals Lra.
From Verif Require Import Base RealBase Frontier_model Frontier_spec AStar_model AStar_spec AStar_proofs
  AStar_opt_proofs Heuristic_proofs AStarInf_spec AStarInf_proofs.

(** [None] is the goal, three away from the state [Some 0]. From [Some k] a step of half the length of the one before
    leads to [Some (k + 1)]. *)
Definition zeno_nb (s : option nat) : list (option nat * unit * R) :=
  match s with
  | None => []
  | Some k => (Some (S k), tt, ((/ 2) ^ S k)%R) :: match k with 0 => [(None, tt, 3%R)] | S _ => [] end
  end.
Definition zeno_succ (_ : unit) (s : option nat) : list (option nat * unit * R) * unit := (zeno_nb s, tt).
Definition zeno_eqb (a b : option nat) : bool :=
  match a, b with Some i, Some j => i =? j | None, None => true | _, _ => false end.
Definition zeno_goal (s : option nat) : bool := match s with None => true | Some _ => false end.

Lemma zeno_eq : decides_eq zeno_eqb.
Proof.
  intros [i|] [j|]; cbn; try (split; congruence). rewrite Nat.eqb_eq. split; congruence.
Qed.
Lemma zeno_det : deterministic zeno_succ zeno_nb.
Proof. intros p s. reflexivity. Qed.

Lemma zeno_trans s a c t : trans zeno_succ s a c t ->
  exists k, s = Some k /\ ((t = Some (S k) /\ c = ((/ 2) ^ S k)%R) \/ (t = None /\ c = 3%R)).
Proof.
  intros [p H]. cbn [zeno_succ fst] in H. destruct s as [k|]; [|contradiction]. exists k. split; auto.
  cbn [zeno_nb] in H. destruct H as [H|H]; [injection H as <- <- <-; auto|].
  destruct k; [|contradiction]. destruct H as [H|[]]. injection H as <- <- <-. auto.
Qed.

Lemma half_pos k : (0 < (/ 2) ^ k)%R.
Proof. apply pow_lt. lra. Qed.

Lemma zeno_cost l : forall k t g, is_path zeno_succ (Some k) l t ->
  match t with
  | Some j => path_cost Rplus g l = (g + (/ 2) ^ k - (/ 2) ^ j)%R
  | None => (g + 3 <= path_cost Rplus g l)%R
  end.
Proof.
  induction l as [|[[a c] u] l IH]; intros k t g Hl; cbn [is_path] in Hl.
  - subst. cbn. lra.
  - destruct Hl as [Htr Hl]. unfold step_action, step_cost, step_state in *. cbn [fst snd] in *.
    change (path_cost Rplus g ((a, c, u) :: l)) with (path_cost Rplus (g + c)%R l).
    apply zeno_trans in Htr as (k' & Ek & [[-> ->]|[-> ->]]); injection Ek as <-.
    + specialize (IH _ _ (g + (/ 2) ^ S k)%R Hl). pose proof (half_pos (S k)). destruct t as [j|]; [|lra].
      rewrite IH. change ((/ 2) ^ S k)%R with (/ 2 * (/ 2) ^ k)%R. lra.
    + destruct l as [|x l]; cbn [is_path] in Hl.
      * subst. cbn. lra.
      * destruct Hl as [Htr _]. apply zeno_trans in Htr as (k' & Ek' & _). discriminate.
Qed.

Lemma zeno_runaway : runaway zeno_succ (Some 0) Some.
Proof.
  split; [reflexivity|]. split; [|congruence]. intros i. exists tt, ((/ 2) ^ S i)%R. exists tt. cbn. auto.
Qed.

Lemma zeno_endless graph fuel :
  search_path zeno_eqb Rltb Rplus 0%R (fun _ => 0%R) zeno_succ zeno_goal (fun _ _ => true) graph fuel (Some 0) tt = NoFuel.
Proof.
  apply (starved_search zeno_eqb Rltb Rplus 0%R (fun _ => 0%R) zeno_succ zeno_goal (fun _ _ => true) graph zeno_nb
           zeno_eq R_cost_laws zeno_det (Some 0) Some zeno_runaway).
  intros i l l' t Hl Hl' Ht. destruct t as [t|]; [discriminate|]. apply Rltb_true.
  apply (zeno_cost l 0 (Some i) 0%R) in Hl. apply (zeno_cost l' 0 None 0%R) in Hl'. cbn [pow] in *.
  pose proof (half_pos i). lra.
Qed.
