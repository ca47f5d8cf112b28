From Coq Require Import Reals Lra.
From Verif Require Import Base AStar_spec AStar_proofs Heuristic_model.
Local Open Scope R_scope.

Lemma leb_R a b : leb Rltb a b <-> a <= b.
Proof. unfold leb. apply Rltb_false. Qed.

Lemma R_cost_laws : cost_laws Rltb Rplus.
Proof.
  split.
  - intros a. apply Rltb_false. lra.
  - intros a b c. rewrite !Rltb_true. lra.
  - intros a b c. rewrite !Rltb_false. lra.
  - intros a b c. rewrite !leb_R. lra.
Qed.

Lemma R_cancellable {S} (h : S -> R) : cancellable Rltb Rplus h.
Proof. intros g1 g2 s. rewrite !leb_R. lra. Qed.

(** a_star.h:312 *)
Lemma R_consistent {S A P} (succ : P -> S -> list (S * A * R) * P) (h : S -> R) :
  (forall u a c v, trans succ u a c v -> h u - h v <= c) -> consistent succ Rltb Rplus h.
Proof. intros H g s a c t Ht. specialize (H _ _ _ _ Ht). apply leb_R. lra. Qed.

Lemma combined_some {S} (hs : list (S -> R)) s : forall v,
  exists m, fold_left (fun v hp => xmax v (hp s)) hs (Some v) = Some m /\ v <= m /\
    (forall hp, In hp hs -> hp s <= m) /\ (m = v \/ exists hp, In hp hs /\ m = hp s).
Proof.
  induction hs as [|h0 hs IH]; intros v; cbn [fold_left].
  - exists v. repeat split; auto; [lra|easy].
  - destruct (IH (if Rlt_dec v (h0 s) then h0 s else v)) as (m & Hm & Hv & Hall & Hex).
    exists m. cbn [xmax]. split; [exact Hm|]. destruct (Rlt_dec v (h0 s)) as [Hlt|Hlt].
    + split; [lra|]. split.
      * intros hp [<-|Hp]; auto.
      * destruct Hex as [->|(hp & Hp & ->)]; right; [exists h0|exists hp]; cbn; auto.
    + split; [lra|]. split.
      * intros hp [<-|Hp]; auto. lra.
      * destruct Hex as [->|(hp & Hp & ->)]; [now left|right]. exists hp. cbn. auto.
Qed.

Lemma combined_max {S} (hs : list (S -> R)) s : hs <> [] ->
  exists m, combined hs s = Some m /\ (forall hp, In hp hs -> hp s <= m) /\ (exists hp, In hp hs /\ m = hp s).
Proof.
  destruct hs as [|h0 hs]; [easy|]. intros _. unfold combined. cbn [fold_left xmax].
  destruct (combined_some hs s (h0 s)) as (m & Hm & Hv & Hall & Hex). exists m. split; [exact Hm|]. split.
  - intros hp [<-|Hp]; auto.
  - destruct Hex as [->|(hp & Hp & ->)]; [exists h0|exists hp]; cbn; auto.
Qed.

Lemma combined_admissible {S} (best : S -> R) (hs : list (S -> R)) : hs <> [] ->
  (forall hp s, In hp hs -> hp s <= best s) -> forall s m, combined hs s = Some m -> m <= best s.
Proof.
  intros Hne Had s m Hm. destruct (combined_max hs s Hne) as (m' & Hm' & _ & hp & Hp & He).
  rewrite Hm' in Hm. injection Hm as <-. subst. auto.
Qed.

Lemma combined_consistent {S A P} (succ : P -> S -> list (S * A * R) * P) (hs : list (S -> R)) : hs <> [] ->
  (forall hp u a c v, In hp hs -> trans succ u a c v -> hp u - hp v <= c) ->
  forall u a c v mu mv, trans succ u a c v -> combined hs u = Some mu -> combined hs v = Some mv -> mu - mv <= c.
Proof.
  intros Hne Hc u a c v mu mv Ht Hu Hv.
  destruct (combined_max hs u Hne) as (m1 & H1 & _ & hp & Hp & E1).
  destruct (combined_max hs v Hne) as (m2 & H2 & Hall & _).
  rewrite H1 in Hu. rewrite H2 in Hv. injection Hu as <-. injection Hv as <-. subst m1.
  specialize (Hc hp _ _ _ _ Hp Ht). specialize (Hall hp Hp). lra.
Qed.
