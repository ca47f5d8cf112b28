(** The gradients of one iteration of the smoother are sums of the terms of the optimized samples. *)
From Coq Require Import Reals Lra Psatz Sorted.
From Verif Require Import Base RealBase Grid_model Coords_model Straight_model Smoother_model Smoother_spec Smoother_proofs
  SmootherGrad_model SmootherGrad_spec SmootherGrad_proofs SmootherCost_spec.
From Coq Require Import ZifyBool ZifyNat ZifyN.
Local Open Scope Z_scope.

(** ** Vectors *)
Lemma padd_assoc a b c : padd (padd a b) c = padd a (padd b c).
Proof. unfold padd. cbn. f_equal; ring. Qed.
Lemma padd_comm a b : padd a b = padd b a.
Proof. unfold padd. cbn. f_equal; ring. Qed.
Lemma padd_0_r a : padd a (0, 0)%R = a.
Proof. destruct a. unfold padd. cbn. f_equal; ring. Qed.
Lemma padd_0_l a : padd (0, 0)%R a = a.
Proof. destruct a. unfold padd. cbn. f_equal; ring. Qed.

Fixpoint psum {A} (f : A -> point) (l : list A) : point :=
  match l with [] => (0, 0)%R | a :: r => padd (f a) (psum f r) end.

Lemma psum_ext {A} (f g : A -> point) l : (forall a, In a l -> f a = g a) -> psum f l = psum g l.
Proof. induction l as [|a l IH]; intros H; cbn; auto. rewrite H by now left. f_equal. apply IH. intros. apply H. now right. Qed.

Lemma psum_zero {A} (f : A -> point) l : (forall a, In a l -> f a = (0, 0)%R) -> psum f l = (0, 0)%R.
Proof. induction l as [|a l IH]; intros H; cbn; auto. rewrite H by now left. rewrite padd_0_l. apply IH. intros. apply H. now right. Qed.

(** ** The terms do not depend on what was accumulated before *)
Lemma local_sum p f no ne orig g0 xm2 xm1 x xp1 xp2 :
  local_terms p f no ne orig g0 xm2 xm1 x xp1 xp2 = rmap (padd g0) (local_terms p f no ne orig (0, 0)%R xm2 xm1 x xp1 xp2).
Proof.
  unfold local_terms. rewrite padd_0_l. set (t := path_term (w_path p) orig x). set (sm := smoothing_term _ _ _ _ _ _).
  destruct (inside_position f x) as [[|]| | |]; cbn [bind rmap]; try reflexivity.
  2:{ now rewrite padd_assoc. }
  destruct (world_to_cell f x true) as [c| | |]; cbn [bind rmap]; try reflexivity.
  destruct (no c) as [o| | |]; cbn [bind rmap]; try reflexivity.
  destruct (Rltb _ (unsafe_radius p)); [destruct (Reqb _ 0); cbn [bind rmap]; try reflexivity|]; cbn [bind rmap];
    (destruct (Rltb _ (vor_dmax p) && Rltb 0 (w_voronoi p)); cbn [bind rmap];
     [destruct (ne c) as [v| | |]; cbn [bind rmap]; try reflexivity;
      destruct (Rltb 0 _); cbn [bind rmap]; [try destruct (Reqb _ 0); cbn [bind rmap]; try reflexivity|]|]; now rewrite !padd_assoc).
Qed.

Lemma curvature_sum w k xm x xp gm gi gp :
  curvature_term w k xm x xp (gm, gi, gp) =
  rmap (fun t => (padd gm (fst (fst t)), padd gi (snd (fst t)), padd gp (snd t)))
    (curvature_term w k xm x xp ((0, 0), (0, 0), (0, 0))%R).
Proof.
  unfold curvature_term. destruct (Reqb (pnorm (psub x xm)) 0); [reflexivity|].
  destruct (Rleb _ k); [cbn [rmap fst snd bind]; now rewrite !padd_0_r|]. destruct (Reqb (pnorm (psub xp x)) 0); [reflexivity|].
  destruct (Reqb _ 0); [reflexivity|]. cbn [rmap fst snd bind]. now rewrite !padd_0_l.
Qed.

(** ** Positions of the samples *)
Lemma zget_at {T} (l : list (point * T)) i x : zget l i = Ok x -> sample l i = fst x.
Proof.
  unfold zget, vget, sample. destruct (i <? 0); [discriminate|]. destruct (nth_error l (Z.to_nat i)); [|discriminate]. now intros [= ->].
Qed.

Definition term : Type := point * (point * point * point).
(** What the terms of sample [j] add to the gradient of sample [k]. *)
Definition share (k j : Z) (t : term) : point :=
  let '(l, (a, b, c)) := t in
  if k =? j then padd l b else if k =? j - 1 then a else if k =? j + 1 then c else (0, 0)%R.

Section Sum.
Variable T : Type.
Variable p : sparams.
Variable f : frames.
Variable no ne : cell -> res cell.
Notation local := (local_terms p f no ne).
Notation curv := (curvature_term (w_curvature p) (max_curvature p)).
Notation accum := (accumulate point T point local curv).
Notation accum_all := (accumulate_all point T point local curv).

(** The terms of a sample. *)
Definition terms (path cur : list (point * T)) (j : Z) (t : term) : Prop :=
  local (sample path j) (0, 0)%R (sample cur (j - 2)) (sample cur (j - 1)) (sample cur j) (sample cur (j + 1)) (sample cur (j + 2)) = Ok (fst t) /\
  curv (sample cur (j - 1)) (sample cur j) (sample cur (j + 1)) ((0, 0), (0, 0), (0, 0))%R = Ok (snd t).

Lemma accum_terms path cur grads j grads' : length cur = length path -> length grads = length path ->
  2 <= j <= Z.of_nat (length path) - 3 -> accum path cur grads j = Ok grads' ->
  exists t, terms path cur j t /\ length grads' = length grads /\
    forall k g, nth_error grads k = Some g -> nth_error grads' k = Some (padd g (share (Z.of_nat k) j t)).
Proof.
  intros Hc Hg Hj. unfold accumulate, terms.
  destruct (zget_ok path j) as (o & Zo & _); [lia|]. rewrite Zo, (zget_at _ _ _ Zo). cbn [bind].
  destruct (zget_ok cur j) as (x0 & Z0 & _); [lia|]. rewrite Z0, (zget_at _ _ _ Z0). cbn [bind].
  destruct (zget_ok cur (j - 2)) as (xm2 & Z1 & _); [lia|]. rewrite Z1, (zget_at _ _ _ Z1). cbn [bind].
  destruct (zget_ok cur (j - 1)) as (xm1 & Z2 & _); [lia|]. rewrite Z2, (zget_at _ _ _ Z2). cbn [bind].
  destruct (zget_ok cur (j + 1)) as (xp1 & Z3 & _); [lia|]. rewrite Z3, (zget_at _ _ _ Z3). cbn [bind].
  destruct (zget_ok cur (j + 2)) as (xp2 & Z4 & _); [lia|]. rewrite Z4, (zget_at _ _ _ Z4). cbn [bind].
  destruct (zget_ok grads j) as (g0 & -> & N0); [lia|]. cbn [bind]. rewrite local_sum.
  destruct (local (fst o) (0, 0)%R (fst xm2) (fst xm1) (fst x0) (fst xp1) (fst xp2)) as [l| | |]; try discriminate. cbn [rmap bind].
  destruct (zset_ok grads j (padd g0 l)) as (gr1 & -> & L1 & N1); [lia|]. cbn [bind].
  destruct (zget_ok gr1 (j - 1)) as (gm & -> & Nm); [lia|]. cbn [bind].
  destruct (zget_ok gr1 j) as (gi & -> & Ni); [lia|]. cbn [bind].
  destruct (zget_ok gr1 (j + 1)) as (gp & -> & Np); [lia|]. cbn [bind]. rewrite curvature_sum.
  destruct (curv (fst xm1) (fst x0) (fst xp1) _) as [[[a b] c]| | |]; try discriminate. cbn [rmap bind fst snd].
  destruct (zset_ok gr1 (j - 1) (padd gm a)) as (gr2 & -> & L2 & N2); [lia|]. cbn [bind].
  destruct (zset_ok gr2 j (padd gi b)) as (gr3 & -> & L3 & N3); [lia|]. cbn [bind].
  destruct (zset_ok gr3 (j + 1) (padd gp c)) as (gr4 & -> & L4 & N4); [lia|]. intros [= <-].
  exists (l, (a, b, c)). split; [split; reflexivity|]. split; [lia|]. intros k g Hk.
  rewrite N1 in Nm, Ni, Np. destruct (Nat.eq_dec (Z.to_nat (j - 1)) (Z.to_nat j)); [lia|].
  destruct (Nat.eq_dec (Z.to_nat j) (Z.to_nat j)); [|lia]. destruct (Nat.eq_dec (Z.to_nat (j + 1)) (Z.to_nat j)); [lia|].
  cbn [share]. rewrite N4. destruct (Nat.eq_dec k (Z.to_nat (j + 1))) as [->|K1].
  { replace (Z.of_nat (Z.to_nat (j + 1)) =? j) with false by lia. replace (Z.of_nat (Z.to_nat (j + 1)) =? j - 1) with false by lia.
    replace (Z.of_nat (Z.to_nat (j + 1)) =? j + 1) with true by lia. congruence. }
  rewrite N3. destruct (Nat.eq_dec k (Z.to_nat j)) as [->|K2].
  { replace (Z.of_nat (Z.to_nat j) =? j) with true by lia. f_equal. rewrite <- padd_assoc. f_equal. congruence. }
  replace (Z.of_nat k =? j) with false by lia. rewrite N2. destruct (Nat.eq_dec k (Z.to_nat (j - 1))) as [->|K3].
  { replace (Z.of_nat (Z.to_nat (j - 1)) =? j - 1) with true by lia. congruence. }
  replace (Z.of_nat k =? j - 1) with false by lia. replace (Z.of_nat k =? j + 1) with false by lia.
  rewrite N1. destruct (Nat.eq_dec k (Z.to_nat j)); [lia|]. now rewrite padd_0_r.
Qed.

Lemma accum_all_terms path cur idx : length cur = length path ->
  (forall j, In j idx -> 2 <= j <= Z.of_nat (length path) - 3) -> forall grads grads', length grads = length path ->
  accum_all path cur grads idx = Ok grads' ->
  exists ts : list (Z * term), map fst ts = idx /\ (forall jt, In jt ts -> terms path cur (fst jt) (snd jt)) /\
    length grads' = length grads /\
    forall k g, nth_error grads k = Some g ->
      nth_error grads' k = Some (padd g (psum (fun jt => share (Z.of_nat k) (fst jt) (snd jt)) ts)).
Proof.
  intros Hc. induction idx as [|j r IH]; intros Hi grads grads' Hg; cbn [accumulate_all].
  - intros [= <-]. exists []. split; auto. split; [now intros jt []|]. split; auto. intros k g Hk. cbn. now rewrite padd_0_r.
  - destruct (accum path cur grads j) as [g1| | |] eqn:E1; try discriminate. cbn [bind]. intros E2.
    destruct (accum_terms _ _ _ _ _ Hc Hg (Hi j (or_introl eq_refl)) E1) as (t & Ht & L1 & N1).
    destruct (IH (fun j' Hj' => Hi j' (or_intror Hj')) g1 grads') as (ts & M & F & L2 & N2); [lia|exact E2|].
    exists ((j, t) :: ts). split; [cbn; congruence|]. split; [intros jt [<-|Hin]; auto|]. split; [lia|].
    intros k g Hk. rewrite (N2 k _ (N1 k g Hk)). cbn [psum fst snd]. now rewrite padd_assoc.
Qed.

(** From the zero gradient. *)
Lemma gradients path cur idx grads : length cur = length path ->
  (forall j, In j idx -> 2 <= j <= Z.of_nat (length path) - 3) ->
  accum_all path cur (repeat (0, 0)%R (length path)) idx = Ok grads ->
  exists ts : list (Z * term), map fst ts = idx /\ (forall jt, In jt ts -> terms path cur (fst jt) (snd jt)) /\
    length grads = length path /\
    forall k, (k < length path)%nat ->
      nth_error grads k = Some (psum (fun jt => share (Z.of_nat k) (fst jt) (snd jt)) ts).
Proof.
  intros Hc Hi E. destruct (accum_all_terms path cur idx Hc Hi _ _ (repeat_length _ _) E) as (ts & M & F & L & N).
  rewrite repeat_length in L. exists ts. split; auto. split; auto. split; auto. intros k Hk.
  rewrite (N k (0, 0)%R); [now rewrite padd_0_l|]. now apply nth_error_repeat.
Qed.
End Sum.

(** ** The samples after the step *)
Lemma apply_at {T} p (cur : list (point * T)) grads k g : length grads = length cur -> nth_error grads (Z.to_nat k) = Some g ->
  0 <= k < Z.of_nat (length cur) ->
  sample (apply_all point T point (move p) cur grads) k = psub (sample cur k) (scale (learning_rate p) g).
Proof.
  intros L H Hk. unfold apply_all, sample.
  assert (Hn : (Z.to_nat k < length cur)%nat) by lia. revert Hn H. generalize (Z.to_nat k) as i. clear Hk k.
  revert grads L. induction cur as [|x cur IH]; intros [|g' grads] L i Hn H; try discriminate L; cbn in Hn; [lia|].
  destruct i as [|i]; cbn in *; [injection H as ->; reflexivity|]. apply IH; auto; lia.
Qed.
Lemma apply_length {T} p (cur : list (point * T)) grads : length grads = length cur ->
  length (apply_all point T point (move p) cur grads) = length cur.
Proof. intros L. unfold apply_all. rewrite map_length, combine_length. lia. Qed.
