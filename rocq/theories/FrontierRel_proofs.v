(** The frontier only looks at its elements through its two functions: on related elements it computes related results. *)
From Verif Require Import Base Frontier_model.

Definition res_rel {A B} (R : A -> B -> Prop) (x : res A) (y : res B) : Prop :=
  match x, y with
  | Ok a, Ok b => R a b
  | UB, UB | Throw, Throw | NoFuel, NoFuel => True
  | _, _ => False
  end.

Lemma bind_rel {A B A' B'} (R : A -> B -> Prop) (Q : A' -> B' -> Prop) x y f g :
  res_rel R x y -> (forall a b, R a b -> res_rel Q (f a) (g b)) -> res_rel Q (bind x f) (bind y g).
Proof. destruct x, y; cbn; try contradiction; auto. Qed.

Section Rel.
Variables (T T' : Type) (Rel : T -> T' -> Prop).
Variables (cmp : T -> T -> bool) (cmp' : T' -> T' -> bool) (eqk : T -> T -> bool) (eqk' : T' -> T' -> bool).
Hypothesis Hcmp : forall a a' b b', Rel a a' -> Rel b b' -> cmp a b = cmp' a' b'.
Hypothesis Heqk : forall a a' b b', Rel a a' -> Rel b b' -> eqk a b = eqk' a' b'.

Definition fr_rel (f : frontier T) (f' : frontier T') : Prop := Forall2 Rel (vec f) (vec f') /\ Forall2 Rel (set f) (set f').

Lemma F2_length v v' : Forall2 Rel v v' -> length v = length v'.
Proof. induction 1; cbn; auto. Qed.

Lemma vget_rel v v' i : Forall2 Rel v v' -> res_rel Rel (vget v i) (vget v' i).
Proof. intros H. revert i. unfold vget. induction H as [|a b v v' H1 H2 IH]; intros [|i]; cbn; auto. Qed.

Lemma firstn_rel v v' i : Forall2 Rel v v' -> Forall2 Rel (firstn i v) (firstn i v').
Proof. intros H. revert i. induction H; intros [|i]; cbn; constructor; auto. Qed.
Lemma skipn_rel v v' i : Forall2 Rel v v' -> Forall2 Rel (skipn i v) (skipn i v').
Proof. intros H. revert i. induction H; intros [|i]; cbn; auto. Qed.

Lemma vinsert_rel v v' i a a' : Forall2 Rel v v' -> Rel a a' -> res_rel (Forall2 Rel) (vinsert v i a) (vinsert v' i a').
Proof.
  intros H Ha. unfold vinsert. rewrite (F2_length _ _ H). destruct (i <=? length v'); cbn; auto.
  apply Forall2_app; [now apply firstn_rel|]. constructor; auto. now apply skipn_rel.
Qed.
Lemma verase_rel v v' i : Forall2 Rel v v' -> res_rel (Forall2 Rel) (verase v i) (verase v' i).
Proof.
  intros H. unfold verase. rewrite (F2_length _ _ H). destruct (i <? length v'); cbn; auto.
  apply Forall2_app; [now apply firstn_rel|]. now apply (skipn_rel _ _ (S i)).
Qed.

Lemma ffirst_rel fuel v v' x x' : Forall2 Rel v v' -> Rel x x' -> forall b e mid, ffirst cmp fuel v x b e mid = ffirst cmp' fuel v' x' b e mid.
Proof.
  intros H Hx. induction fuel as [|fuel IH]; intros b e mid; cbn [ffirst]; auto. destruct (b =? e); auto.
  pose proof (vget_rel v v' (b + (e - b) / 2) H) as G. destruct (vget v _) as [m| | |], (vget v' _) as [m'| | |]; cbn in G; try contradiction; auto. cbn [bind].
  rewrite (Hcmp x x' m m' Hx G). destruct (cmp' x' m'); auto. rewrite (F2_length _ _ H). destruct (_ =? length v'); cbn [bind]; auto.
  pose proof (vget_rel v v' (S (b + (e - b) / 2)) H) as G'. destruct (vget v _) as [n| | |], (vget v' _) as [n'| | |]; cbn in G'; try contradiction; auto. cbn [bind].
  rewrite (Hcmp x x' n n' Hx G'). destruct (negb _); auto.
Qed.
Lemma flast_rel fuel v v' x x' : Forall2 Rel v v' -> Rel x x' -> forall b e mid, flast cmp fuel v x b e mid = flast cmp' fuel v' x' b e mid.
Proof.
  intros H Hx. induction fuel as [|fuel IH]; intros b e mid; cbn [flast]; auto. destruct (b =? e); auto.
  pose proof (vget_rel v v' (b + (e - b) / 2) H) as G. destruct (vget v _) as [m| | |], (vget v' _) as [m'| | |]; cbn in G; try contradiction; auto. cbn [bind].
  rewrite (Hcmp m m' x x' G Hx). destruct (negb (cmp' m' x')); auto. rewrite (F2_length _ _ H). destruct (_ =? length v'); cbn [bind]; auto.
  pose proof (vget_rel v v' (S (b + (e - b) / 2)) H) as G'. destruct (vget v _) as [n| | |], (vget v' _) as [n'| | |]; cbn in G'; try contradiction; auto. cbn [bind].
  rewrite (Hcmp n n' x x' G' Hx). destruct (cmp' n' x'); auto.
Qed.

Definition opt_rel (o : option T) (o' : option T') : Prop :=
  match o, o' with Some a, Some b => Rel a b | None, None => True | _, _ => False end.
Lemma find_rel s s' x x' : Forall2 Rel s s' -> Rel x x' -> opt_rel (set_find eqk x s) (set_find eqk' x' s').
Proof. intros H Hx. unfold set_find. induction H as [|a b s s' H1 H2 IH]; cbn; auto. rewrite (Heqk x x' a b Hx H1). destruct (eqk' x' b); cbn; auto. Qed.
Lemma set_erase_rel s s' x x' : Forall2 Rel s s' -> Rel x x' -> Forall2 Rel (set_erase eqk x s) (set_erase eqk' x' s').
Proof. intros H Hx. unfold set_erase. induction H as [|a b s s' H1 H2 IH]; cbn; auto. rewrite (Heqk x x' a b Hx H1). destruct (negb _); auto. Qed.

Lemma push_rel f f' x x' : fr_rel f f' -> Rel x x' -> res_rel (fun r r' => fr_rel (snd r) (snd r')) (f_push cmp eqk x f) (f_push cmp' eqk' x' f').
Proof.
  intros [Hv Hs] Hx. unfold f_push. pose proof (find_rel _ _ _ _ Hs Hx) as F. destruct (set_find eqk x (set f)), (set_find eqk' x' (set f')); cbn in F; try contradiction.
  - cbn. now split.
  - rewrite (F2_length _ _ Hv), (ffirst_rel _ _ _ x x' Hv Hx). destruct (ffirst cmp' _ _ _ _ _ _) as [i| | |]; cbn; auto.
    eapply bind_rel; [apply vinsert_rel; eauto|]. intros v v' Hv'. cbn. split; cbn; auto.
Qed.

Lemma scan_rel y y' rest rest' v v' : Forall2 Rel rest rest' -> Rel y y' -> Forall2 Rel v v' -> forall i,
  res_rel (fun r r' => Forall2 Rel (fst r) (fst r')) (scan_erase eqk y rest i v) (scan_erase eqk' y' rest' i v').
Proof.
  intros H Hy Hv. induction H as [|a b r r' H1 H2 IH]; intros i; cbn; auto. rewrite (Heqk a b y y' H1 Hy). destruct (eqk' b y'); auto.
  eapply bind_rel; [now apply verase_rel|]. intros ? ? ?. cbn. auto.
Qed.

Lemma remove_rel f f' x x' : fr_rel f f' -> Rel x x' -> res_rel (fun r r' => fr_rel (snd r) (snd r')) (f_remove cmp eqk x f) (f_remove cmp' eqk' x' f').
Proof.
  intros [Hv Hs] Hx. unfold f_remove. pose proof (find_rel _ _ _ _ Hs Hx) as F. destruct (set_find eqk x (set f)) as [y|], (set_find eqk' x' (set f')) as [y'|]; cbn in F; try contradiction.
  - rewrite (F2_length _ _ Hv), (flast_rel _ _ _ y y' Hv F). destruct (flast cmp' _ _ _ _ _ _) as [i| | |]; cbn [bind res_rel]; auto.
    eapply bind_rel; [apply scan_rel; eauto; now apply skipn_rel|]. intros [v1 b1] [v2 b2] Hab. cbn in *. split; cbn; auto. now apply set_erase_rel.
  - cbn. now split.
Qed.

Lemma rev_rel v v' : Forall2 Rel v v' -> Forall2 Rel (rev v) (rev v').
Proof. induction 1; cbn; auto. apply Forall2_app; auto. Qed.
Lemma removelast_rel v v' : Forall2 Rel v v' -> Forall2 Rel (removelast v) (removelast v').
Proof. induction 1 as [|a b v v' H1 H2 IH]; cbn; auto. destruct H2; auto. Qed.

Lemma pop_rel f f' : fr_rel f f' -> res_rel (fun r r' => Rel (fst r) (fst r') /\ fr_rel (snd r) (snd r')) (f_pop eqk f) (f_pop eqk' f').
Proof.
  intros [Hv Hs]. unfold f_pop, f_top. pose proof (rev_rel _ _ Hv) as H. destruct H as [|a b r r' H1 H2]; cbn; auto.
  split; auto. split; cbn; [now apply removelast_rel|now apply set_erase_rel].
Qed.

Lemma is_empty_rel f f' : fr_rel f f' -> f_is_empty f = f_is_empty f'.
Proof. intros [Hv _]. unfold f_is_empty. now destruct Hv. Qed.
End Rel.
