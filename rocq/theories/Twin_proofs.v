(** A state space for the theorems about infinite searches: steps that get shorter and shorter on both sides. It is an example, not code of
    /repo. [twin_nb d] are the steps taken forwards ([d = true]) and backwards. *)
From Coq Require Import Reals Lra.
From Verif Require Import Base RealBase AStar_spec AStarInf_spec.

Definition twin_nb (d : bool) (s : bool * nat) : list ((bool * nat) * unit * R) :=
  let (side, k) := s in
  if Bool.eqb side d
  then ((side, Datatypes.S k), tt, ((/ 2) ^ Datatypes.S k)%R) :: match k with 0 => [((negb side, 0), tt, 3%R)] | _ => [] end
  else match k with 0 => [] | Datatypes.S k' => [((side, k'), tt, ((/ 2) ^ k)%R)] end.
Definition twin_succ (d : bool) (_ : unit) (s : bool * nat) : list ((bool * nat) * unit * R) * unit := (twin_nb d s, tt).
Definition twin_eqb (a b : bool * nat) : bool := Bool.eqb (fst a) (fst b) && (snd a =? snd b).

Lemma twin_eq : decides_eq twin_eqb.
Proof.
  intros [a i] [b j]. unfold twin_eqb. cbn [fst snd]. rewrite andb_true_iff, Nat.eqb_eq, eqb_true_iff. split; [intros []; congruence|].
  intros H. injection H. auto.
Qed.
Lemma twin_det d : deterministic (twin_succ d) (twin_nb d).
Proof. intros p s. reflexivity. Qed.

Lemma twin_half k : (0 < (/ 2) ^ k)%R.
Proof. apply pow_lt. lra. Qed.

Lemma twin_far d l : forall t g, is_path (twin_succ d) (negb d, 0) l t -> t = (negb d, 0) /\ path_cost Rplus g l = g.
Proof.
  destruct l as [|[[a c] u] l]; intros t g Hl; cbn [is_path] in Hl; [auto|].
  destruct Hl as [[p Htr] _]. cbn [twin_succ twin_nb fst] in Htr. rewrite eqb_negb1 in Htr. contradiction.
Qed.

Lemma twin_cost d l : forall k t g, is_path (twin_succ d) (d, k) l t ->
  (fst t = d /\ path_cost Rplus g l = (g + (/ 2) ^ k - (/ 2) ^ snd t)%R /\ (l = [] \/ 0 < snd t)) \/
  (t = (negb d, 0) /\ (g + 3 <= path_cost Rplus g l)%R).
Proof.
  induction l as [|[[a c] u] l IH]; intros k t g Hl; cbn [is_path] in Hl.
  - subst. left. cbn. repeat split; [lra|auto].
  - destruct Hl as [[p Htr] Hl]. unfold step_action, step_cost, step_state in *. cbn [fst snd] in *.
    change (path_cost Rplus g ((a, c, u) :: l)) with (path_cost Rplus (g + c)%R l).
    cbn [twin_succ twin_nb fst] in Htr. rewrite eqb_reflx in Htr. destruct Htr as [Htr|Htr].
    + injection Htr as <- <- <-. pose proof (twin_half k) as Hp.
      destruct (IH _ _ (g + / 2 * (/ 2) ^ k)%R Hl) as [(H1 & H2 & H3)|(H1 & H2)].
      * left. split; auto. split; [etransitivity; [exact H2|]; change ((/ 2) ^ Datatypes.S k)%R with (/ 2 * (/ 2) ^ k)%R; lra|].
        destruct H3 as [->|?]; auto. cbn in Hl. subst t. cbn. right. lia.
      * right. split; auto. eapply Rle_trans; [|exact H2]. lra.
    + destruct k; [|contradiction]. destruct Htr as [Htr|[]]. injection Htr as <- <- <-.
      destruct (twin_far d l t (g + 3)%R Hl) as (-> & ->). right. split; auto. lra.
Qed.

Lemma twin_runaway d : runaway (twin_succ d) (d, 0) (fun i => (d, i)).
Proof.
  split; [reflexivity|]. split; [|congruence]. intros i. exists tt, ((/ 2) ^ Datatypes.S i)%R. exists tt. cbn. rewrite eqb_reflx. cbn. auto.
Qed.

Lemma twin_apart d i l l' t : is_path (twin_succ d) (d, 0) l (d, i) -> is_path (twin_succ d) (d, 0) l' t -> l' <> [] ->
  reachable (twin_succ (negb d)) (negb d, 0) t -> Rltb (path_cost Rplus 0 l + 0)%R (path_cost Rplus 0 l' + 0)%R = true.
Proof.
  intros Hl Hl' Hn [lr Hr]. apply Rltb_true.
  destruct (twin_cost d l 0 _ 0%R Hl) as [(_ & -> & _)|(H & _)]; [|injection H; now destruct d].
  cbn [snd pow]. pose proof (twin_half i).
  destruct (twin_cost d l' 0 _ 0%R Hl') as [(H1 & _ & H3)|(_ & H2)]; [|lra]. exfalso.
  destruct H3 as [?|H3]; [congruence|].
  destruct (twin_cost (negb d) lr 0 _ 0%R Hr) as [(H4 & _)|(-> & _)]; [rewrite H1 in H4; now destruct d|]. cbn in H3. lia.
Qed.
