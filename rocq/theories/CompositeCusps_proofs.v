(** Which joints of a composite path are cusps, in double precision. *)
From Flocq Require Import BinarySingleNaN.
From Verif Require Import Base CoordsFloat_model StraightFloat_model Bicycle_model Composite_model Composite_proofs CompositeFloat_model CompositeFloat_spec CompositeFloat_proofs.
From Coq Require Import Lia.

Section Cusps.
Variables State Part : Type.
Variable len : Part -> double.
Variable final : Part -> State.
Variable dir : Part -> double -> direction.
Variable cusps : Part -> list double.
Notation sum := (sum_from Part len).
Notation segs := (segments Part len).

Lemma cusp_joints total x : forall rest pre p, In x (d_cusp_loop Part len dir cusps total (segs (sum d_zero (pre ++ [p])) rest) (sum d_zero (pre ++ [p])) (dir p d_one)) <->
  (exists q, In q rest /\ In x (cusps q)) \/
  (exists b p' q a, p :: rest = b ++ p' :: q :: a /\ dir q d_zero <> dir p' d_one /\ x = d_div (sum d_zero (pre ++ b ++ [p'])) total).
Proof.
  induction rest as [|y rest IH]; intros pre p; cbn [segments d_cusp_loop ds_path].
  - split; [intros []|]. intros [(q & [] & _)|(b & p' & q & a & E & _)]. destruct b as [|? [|? ?]]; discriminate.
  - rewrite !in_app_iff. assert (ES : d_add (sum d_zero (pre ++ [p])) (len y) = sum d_zero ((pre ++ [p]) ++ [y])) by (unfold sum_from; rewrite (fold_left_app _ (pre ++ [p]) [y]); reflexivity). rewrite ES, (IH (pre ++ [p]) y). split.
    + intros [H|[H|[(q & I & H)|(b & p' & q & a & E & D & H)]]].
      * destruct (direction_eqb _ _) eqn:ED; [destruct H|]. destruct H as [<- |[]]. right. exists [], p, y, rest. split; [reflexivity|]. split; [|reflexivity]. intros Y. apply direction_eqb_spec in Y. congruence.
      * left. exists y. split; [left; reflexivity|exact H].
      * left. exists q. split; [right; exact I|exact H].
      * right. exists (p :: b), p', q, a. split; [rewrite E; reflexivity|]. split; [exact D|]. rewrite H, <- app_assoc. reflexivity.
    + intros [(q & [<- |I] & H)|(b & p' & q & a & E & D & H)]; [right; left; exact H|right; right; left; eauto|].
      destruct b as [|w b].
      * left. assert (p = p' /\ y = q) as [<- <-] by (cbn [app] in E; split; congruence). destruct (direction_eqb _ _) eqn:ED; [apply direction_eqb_spec in ED; congruence|]. left. symmetry. exact H.
      * right. right. right. assert (p = w) as <- by (cbn [app] in E; congruence). exists b, p', q, a. split; [exact (f_equal (@tl Part) E)|]. split; [exact D|]. rewrite H, <- app_assoc. reflexivity.
Qed.

Lemma all_cusps dflt parts x : let whole := d_compose State Part len final dflt in
  In x (dk_cusps State Part len dir cusps (whole parts)) <->
  (exists p, In p parts /\ In x (cusps p)) \/
  (exists before p q after, parts = before ++ p :: q :: after /\ dir q d_zero <> dir p d_one /\ x = d_div (dk_length _ _ (whole (before ++ [p]))) (dk_length _ _ (whole parts))).
Proof.
  intros whole. assert (L : forall l, dk_length _ _ (whole l) = sum d_zero l) by (intros l; apply (composed State Part len final dflt l)). setoid_rewrite L. unfold dk_cusps. destruct (composed State Part len final dflt parts) as [E1 _]. fold (whole parts) in E1. rewrite E1, L.
  destruct parts as [|p rest]; cbn [segments].
  - split; [intros []|]. intros [(q & [] & _)|(b & p & q & a & E & _)]. destruct b; discriminate.
  - cbn [d_cusp_loop ds_path]. assert (EQ : direction_eqb (dir p d_zero) (dir p d_zero) = true) by (apply direction_eqb_spec; reflexivity). rewrite EQ. cbn [app]. rewrite in_app_iff. change (d_add d_zero (len p)) with (sum d_zero ([] ++ [p])). rewrite cusp_joints. cbn [app]. split.
    + intros [H|[(q & I & H)|H]]; [left; exists p; split; [left; reflexivity|exact H]|left; exists q; split; [right; exact I|exact H]|right; exact H].
    + intros [(q & [<- |I] & H)|H]; [left; exact H|right; left; eauto|right; right; exact H].
Qed.
End Cusps.
