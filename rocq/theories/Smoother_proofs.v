(** Smoothing. *)
From Coq Require Import Reals Lra Sorted.
From Verif Require Import Base RealBase Smoother_model Smoother_spec.
From Coq Require Import ZifyBool ZifyNat ZifyN.
Local Open Scope Z_scope.

(** ** Selection of the indices *)
Lemma select_S k cusp num i : select (S k) cusp num i =
  if i <? num - 4 then
    if cusp (i + 4) then select k cusp num (i + 3 + 1)
    else if cusp (i + 3) then select k cusp num (i + 2 + 1)
    else if cusp (i + 2) then select k cusp num (i + 1 + 1)
    else if cusp (i + 1) then select k cusp num (i + 1)
    else if cusp i then select k cusp num (i + 1)
    else do r <- select k cusp num (i + 1); Ok (i + 2 :: r)
  else Ok [].
Proof. reflexivity. Qed.

Lemma select_ok cusp num : forall fuel i, num - 4 - i <= Z.of_nat fuel ->
  exists l, select fuel cusp num i = Ok l /\ StronglySorted Z.lt l /\
    forall k, In k l <-> i <= k - 2 /\ k - 2 < num - 4 /\ forall j, k - 2 <= j <= k + 2 -> cusp j = false.
Proof.
  assert (Skip : forall l i d num' j0, (forall k, In k l <-> i + d <= k - 2 /\ k - 2 < num' /\ forall j, k - 2 <= j <= k + 2 -> cusp j = false) ->
    cusp j0 = true -> 0 <= d -> i + d - 1 <= j0 <= i + 4 ->
    forall k, In k l <-> i <= k - 2 /\ k - 2 < num' /\ forall j, k - 2 <= j <= k + 2 -> cusp j = false).
  { intros l i d num' j0 H Hj Hd Hr k. rewrite H. split; intros (A & B & D); split; auto; try lia.
    destruct (Z_lt_le_dec (k - 2) (i + d)); auto. rewrite (D j0) in Hj; [discriminate|lia]. }
  induction fuel as [|fuel IH]; intros i Hf.
  - exists []. cbn [select]. replace (i <? num - 4) with false by lia. split; auto. split; [constructor|]. cbn. lia.
  - rewrite select_S. destruct (i <? num - 4) eqn:Hi.
    2:{ exists []. split; auto. split; [constructor|]. cbn. lia. }
    destruct (cusp (i + 4)) eqn:C4.
    { destruct (IH (i + 3 + 1)) as (l & E & S & H); [lia|]. exists l. split; auto. split; auto.
      apply (Skip l i 4 _ (i + 4)); auto; try lia. intros k. rewrite H. replace (i + 3 + 1) with (i + 4) by lia. tauto. }
    destruct (cusp (i + 3)) eqn:C3.
    { destruct (IH (i + 2 + 1)) as (l & E & S & H); [lia|]. exists l. split; auto. split; auto.
      apply (Skip l i 3 _ (i + 3)); auto; try lia. intros k. rewrite H. replace (i + 2 + 1) with (i + 3) by lia. tauto. }
    destruct (cusp (i + 2)) eqn:C2.
    { destruct (IH (i + 1 + 1)) as (l & E & S & H); [lia|]. exists l. split; auto. split; auto.
      apply (Skip l i 2 _ (i + 2)); auto; try lia. intros k. rewrite H. replace (i + 1 + 1) with (i + 2) by lia. tauto. }
    destruct (cusp (i + 1)) eqn:C1.
    { destruct (IH (i + 1)) as (l & E & S & H); [lia|]. exists l. split; auto. split; auto.
      apply (Skip l i 1 _ (i + 1)); auto; lia. }
    destruct (cusp i) eqn:C0.
    { destruct (IH (i + 1)) as (l & E & S & H); [lia|]. exists l. split; auto. split; auto.
      apply (Skip l i 1 _ i); auto; lia. }
    destruct (IH (i + 1)) as (l & E & S & H); [lia|]. rewrite E. cbn [bind]. exists (i + 2 :: l). split; auto. split.
    { constructor; auto. apply Forall_forall. intros k Hk. apply H in Hk. lia. }
    intros k. cbn [In]. rewrite H. split.
    + intros [K|(A & B & D)]; [|split; [lia|split; auto]]. subst k. split; [lia|]. split; [lia|]. intros j Hj.
      assert (j = i \/ j = i + 1 \/ j = i + 2 \/ j = i + 3 \/ j = i + 4) as [J|[J|[J|[J|J]]]] by lia; subst j; auto.
    + intros (A & B & D). destruct (Z.eq_dec k (i + 2)) as [|N]; [left; lia|right]. split; [lia|]. auto.
Qed.

Lemma select_spec cusp n : exists l, select n cusp (Z.of_nat n) 0 = Ok l /\ StronglySorted Z.lt l /\
  forall k, In k l <-> optimized (Z.of_nat n) cusp k.
Proof.
  destruct (select_ok cusp (Z.of_nat n) n 0) as (l & E & S & H); [lia|]. exists l. split; auto. split; auto. intros k. rewrite H.
  unfold optimized. split; intros; destruct H0 as (A & B); (split; [lia|]).
  - apply B.
  - split; [lia|]. apply B.
Qed.

(** ** Vectors *)
Lemma zget_ok {A} (v : list A) i : 0 <= i < Z.of_nat (length v) -> exists a, zget v i = Ok a /\ nth_error v (Z.to_nat i) = Some a.
Proof.
  intros H. unfold zget. replace (i <? 0) with false by lia. unfold vget. destruct (nth_error v (Z.to_nat i)) eqn:E; eauto.
  apply nth_error_None in E. lia.
Qed.

Lemma vset_nth {A} (v : list A) i a : (i < length v)%nat -> exists v', vset v i a = Ok v' /\ length v' = length v /\
  forall k, nth_error v' k = if Nat.eq_dec k i then Some a else nth_error v k.
Proof.
  intros H. unfold vset. replace (i <? length v)%nat with true by lia. eexists. split; [reflexivity|].
  assert (L : length (firstn i v) = i) by (rewrite firstn_length; lia). split.
  - rewrite app_length. cbn [length]. rewrite skipn_length, L. lia.
  - intros k. destruct (Nat.eq_dec k i) as [->|N].
    + rewrite nth_error_app2 by lia. rewrite L, Nat.sub_diag. reflexivity.
    + destruct (Nat.lt_ge_cases k i) as [Lt|Ge].
      * rewrite nth_error_app1 by lia. rewrite <- (firstn_skipn i v) at 2. rewrite nth_error_app1 by lia. reflexivity.
      * rewrite nth_error_app2 by lia. rewrite L. destruct (k - i)%nat as [|m] eqn:Em; [lia|]. cbn [nth_error].
        rewrite <- (firstn_skipn (S i) v) at 2. rewrite nth_error_app2; rewrite firstn_length; [|lia]. f_equal. lia.
Qed.

Lemma zset_ok {A} (v : list A) i a : 0 <= i < Z.of_nat (length v) -> exists v', zset v i a = Ok v' /\ length v' = length v /\
  forall k, nth_error v' k = if Nat.eq_dec k (Z.to_nat i) then Some a else nth_error v k.
Proof. intros H. unfold zset. replace (i <? 0) with false by lia. apply vset_nth. lia. Qed.

Section Smoother.
Variables P T G : Type.
Variable zero : G.
Variable local_terms : P -> G -> P -> P -> P -> P -> P -> res G.
Variable curvature_term : P -> P -> P -> G * G * G -> res (G * G * G).
Variable move : P -> G -> P.
Variable norm : G -> R.
Variable valid : P * T -> res bool.
Variable maxIterations : Z.
Variable tolerance : R.
Hypothesis move_zero : forall x, move x zero = x.
Notation accum := (accumulate P T G local_terms curvature_term).
Notation accum_all := (accumulate_all P T G local_terms curvature_term).
Notation iter := (iterate P T G zero local_terms curvature_term move norm maxIterations tolerance).
Notation smoothing := (smooth P T G zero local_terms curvature_term move norm valid maxIterations tolerance).
Notation safe := (is_path_safe P T valid).

(** An evaluation of the gradient terms is undefined, or one of the validity check. *)
Definition terms_undefined :=
  (exists o g a b c d e, forall g', local_terms o g a b c d e <> Ok g') \/ (exists a b c g, forall g', curvature_term a b c g <> Ok g').
Definition valid_undefined := exists x, forall b, valid x <> Ok b.

Lemma accum_ok path cur grads i : length cur = length path -> length grads = length path ->
  2 <= i <= Z.of_nat (length path) - 3 ->
  (exists g', accum path cur grads i = Ok g' /\ length g' = length grads /\
    forall k, (Z.of_nat k < i - 1 \/ i + 1 < Z.of_nat k) -> nth_error g' k = nth_error grads k) \/
  (terms_undefined /\ forall g', accum path cur grads i <> Ok g').
Proof.
  intros Hc Hg Hi. unfold accumulate.
  destruct (zget_ok path i) as (o & -> & _); [lia|]. cbn [bind].
  destruct (zget_ok cur i) as (x0 & -> & _); [lia|]. cbn [bind].
  destruct (zget_ok cur (i - 2)) as (xm2 & -> & _); [lia|]. cbn [bind].
  destruct (zget_ok cur (i - 1)) as (xm1 & -> & _); [lia|]. cbn [bind].
  destruct (zget_ok cur (i + 1)) as (xp1 & -> & _); [lia|]. cbn [bind].
  destruct (zget_ok cur (i + 2)) as (xp2 & -> & _); [lia|]. cbn [bind].
  destruct (zget_ok grads i) as (g0 & -> & _); [lia|]. cbn [bind].
  destruct (local_terms (fst o) g0 (fst xm2) (fst xm1) (fst x0) (fst xp1) (fst xp2)) as [g1| | |] eqn:El;
    [|right; split; [|discriminate]; left; exists (fst o), g0, (fst xm2), (fst xm1), (fst x0), (fst xp1), (fst xp2); rewrite El; discriminate ..].
  cbn [bind].
  destruct (zset_ok grads i g1) as (gr1 & -> & L1 & N1); [lia|]. cbn [bind].
  destruct (zget_ok gr1 (i - 1)) as (gm & -> & _); [lia|]. cbn [bind].
  destruct (zget_ok gr1 i) as (gi & -> & _); [lia|]. cbn [bind].
  destruct (zget_ok gr1 (i + 1)) as (gp & -> & _); [lia|]. cbn [bind].
  destruct (curvature_term (fst xm1) (fst x0) (fst xp1) (gm, gi, gp)) as [[[gm' gi'] gp']| | |] eqn:Ec;
    [|right; split; [|discriminate]; right; exists (fst xm1), (fst x0), (fst xp1), (gm, gi, gp); rewrite Ec; discriminate ..].
  left. cbn [bind].
  destruct (zset_ok gr1 (i - 1) gm') as (gr2 & -> & L2 & N2); [lia|]. cbn [bind].
  destruct (zset_ok gr2 i gi') as (gr3 & -> & L3 & N3); [lia|]. cbn [bind].
  destruct (zset_ok gr3 (i + 1) gp') as (gr4 & -> & L4 & N4); [lia|].
  exists gr4. split; auto. split; [lia|]. intros k Hk.
  rewrite N4. destruct (Nat.eq_dec k (Z.to_nat (i + 1))); [lia|]. rewrite N3. destruct (Nat.eq_dec k (Z.to_nat i)); [lia|].
  rewrite N2. destruct (Nat.eq_dec k (Z.to_nat (i - 1))); [lia|]. rewrite N1. destruct (Nat.eq_dec k (Z.to_nat i)); [lia|]. reflexivity.
Qed.

Lemma accum_all_ok path cur idx : length cur = length path ->
  (forall i, In i idx -> 2 <= i <= Z.of_nat (length path) - 3) -> forall grads, length grads = length path ->
  (exists g', accum_all path cur grads idx = Ok g' /\ length g' = length path /\
    forall k, (forall i, In i idx -> Z.of_nat k < i - 1 \/ i + 1 < Z.of_nat k) -> nth_error g' k = nth_error grads k) \/
  (terms_undefined /\ forall g', accum_all path cur grads idx <> Ok g').
Proof.
  intros Hc. induction idx as [|i r IH]; intros Hi grads Hg; cbn [accumulate_all].
  - left. exists grads. auto.
  - destruct (accum_ok path cur grads i Hc Hg (Hi i (or_introl eq_refl))) as [(g1 & -> & L1 & N1)|[U Ne]].
    2:{ right. split; auto. destruct (accum path cur grads i) as [v| | |]; cbn [bind]; try discriminate. exfalso. now apply (Ne v). }
    cbn [bind]. destruct (IH (fun j Hj => Hi j (or_intror Hj)) g1) as [(g2 & E2 & L2 & N2)|U]; [lia| |now right].
    left. exists g2. split; auto. split; auto.
    intros k Hk. rewrite N2; [|intros j Hj; apply Hk; now right]. apply N1. apply Hk. now left.
Qed.

(** What an iteration keeps of the path. *)
Definition keeps (fixed : nat -> Prop) (a b : list (P * T)) : Prop :=
  length b = length a /\ map snd b = map snd a /\ forall k, fixed k -> nth_error b k = nth_error a k.

Lemma keeps_trans fixed a b c : keeps fixed a b -> keeps fixed b c -> keeps fixed a c.
Proof.
  intros (A1 & A2 & A3) (B1 & B2 & B3). split; [congruence|]. split; [congruence|]. intros k Hk. rewrite B3; auto.
Qed.

Lemma apply_keeps (cur : list (P * T)) (grads : list G) (fixed : nat -> Prop) : length grads = length cur ->
  (forall k, fixed k -> (k < length cur)%nat -> nth_error grads k = Some zero) ->
  keeps fixed cur (apply_all P T G move cur grads).
Proof.
  unfold apply_all, keeps. revert grads fixed. induction cur as [|[x t] cur IH]; intros [|g grads] fixed L H; try discriminate L.
  - cbn. auto.
  - cbn. destruct (IH grads (fun k => fixed (S k))) as (A & B & D); [cbn in L; lia| |].
    + intros k Hk Hl. apply (H (S k)); auto. cbn. lia.
    + split; [lia|]. split; [now f_equal|]. intros [|k] Hk; cbn.
      * specialize (H O Hk). cbn in H. assert (g = zero) as -> by (assert (Some g = Some zero) by (apply H; lia); congruence).
        now rewrite move_zero.
      * now apply D.
Qed.

Definition far (idx : list Z) (k : nat) : Prop := forall i, In i idx -> Z.of_nat k < i - 1 \/ i + 1 < Z.of_nat k.

Lemma iter_ok path idx : (forall i, In i idx -> 2 <= i <= Z.of_nat (length path) - 3) ->
  forall fuel count step cur, length cur = length path ->
  (exists s cur', iter fuel path idx count step cur = Ok (s, cur') /\ (s = MaxIteration \/ s = StepTolerance) /\ keeps (far idx) cur cur') \/
  (terms_undefined /\ forall r, iter fuel path idx count step cur <> Ok r) \/
  (Z.of_nat fuel < maxIterations - 1 - count /\ iter fuel path idx count step cur = NoFuel).
Proof.
  intros Hi. induction fuel as [|fuel IH]; intros count step cur Hc; cbn [iterate].
  - destruct (count + 1 >=? maxIterations) eqn:M.
    { left. exists MaxIteration, cur. split; auto. split; auto. repeat split; auto. }
    destruct (Rltb step tolerance).
    { left. exists StepTolerance, cur. split; auto. split; auto. repeat split; auto. }
    right. right. split; auto. lia.
  - destruct (count + 1 >=? maxIterations) eqn:M.
    { left. exists MaxIteration, cur. split; auto. split; auto. repeat split; auto. }
    destruct (Rltb step tolerance).
    { left. exists StepTolerance, cur. split; auto. split; auto. repeat split; auto. }
    destruct (accum_all_ok path cur idx Hc Hi (repeat zero (length path))) as [(g & Eg & L & N)|[U Ne]]; [apply repeat_length| |].
    2:{ right. left. split; auto. destruct (accum_all path cur (repeat zero (length path)) idx) as [v| | |]; cbn [bind]; try discriminate.
        exfalso. now apply (Ne v). }
    rewrite Eg. cbn [bind].
    assert (K : keeps (far idx) cur (apply_all P T G move cur g)).
    { apply apply_keeps; [lia|]. intros k Hk Hl. rewrite (N k Hk). rewrite nth_error_repeat; auto. lia. }
    destruct (IH (count + 1) (max_norm G norm g) (apply_all P T G move cur g)) as [(s & cur' & E & Hs & K')|[U|[F E]]].
    + destruct K as [K _]. lia.
    + left. exists s, cur'. split; auto. split; auto. now apply keeps_trans with (apply_all P T G move cur g).
    + right. left. exact U.
    + right. right. split; auto. lia.
Qed.

Lemma safe_ok l : (exists b, safe l = Ok b) \/ (valid_undefined /\ forall b, safe l <> Ok b).
Proof.
  induction l as [|x r IH]; cbn [is_path_safe]; eauto. destruct (valid x) as [v| | |] eqn:E.
  - cbn [bind]. destruct v; cbn; eauto.
  - right. split; [exists x; rewrite E; discriminate|discriminate].
  - right. split; [exists x; rewrite E; discriminate|discriminate].
  - right. split; [exists x; rewrite E; discriminate|discriminate].
Qed.

Lemma safe_all l : safe l = Ok true -> forall x, In x l -> valid x = Ok true.
Proof.
  induction l as [|x r IH]; cbn [is_path_safe]; intros E y [].
  - subst y. destruct (valid x) as [v| | |]; try discriminate. cbn [bind] in E. destruct v; [reflexivity|discriminate E].
  - destruct (valid x) as [v| | |]; try discriminate. cbn [bind] in E. destruct v; [|discriminate]. cbn [negb] in E. auto.
Qed.

Lemma safe_none l : safe l = Ok false -> exists x, In x l /\ valid x = Ok false.
Proof.
  induction l as [|x r IH]; cbn [is_path_safe]; intros E; try discriminate.
  destruct (valid x) as [v| | |] eqn:Ev; try discriminate. cbn [bind] in E. destruct v; cbn [negb] in E.
  - destruct (IH E) as (y & I & V). exists y. split; auto. now right.
  - exists x. split; auto. now left.
Qed.

(** The result of a call. *)
Lemma smooth_cases fuel old path cusp :
  (exists s out, smoothing fuel true old path cusp = Ok (s, out) /\ length out = length path /\ map snd out = map snd path /\
    (forall k, (forall i, Z.of_nat k - 1 <= i <= Z.of_nat k + 1 -> ~ optimized (Z.of_nat (length path)) cusp i) -> nth_error out k = nth_error path k) /\
    ((s = Failure /\ exists x, In x out /\ valid x = Ok false) \/
     (s <> Failure /\ s <> Collision /\ forall x, In x out -> valid x = Ok true)) /\
    ((length path < 5)%nat -> out = path)) \/
  (terms_undefined /\ forall r, smoothing fuel true old path cusp <> Ok r) \/
  (valid_undefined /\ forall r, smoothing fuel true old path cusp <> Ok r) \/
  (Z.of_nat fuel < maxIterations /\ smoothing fuel true old path cusp = NoFuel).
Proof.
  unfold smooth. cbn [negb]. destruct (Z.of_nat (length path) <? 5) eqn:L5.
  - destruct (safe_ok path) as [[b Eb]|[U Ne]].
    2:{ right. right. left. split; auto. destruct (safe path) as [v| | |]; cbn [bind]; try discriminate. exfalso. now apply (Ne v). }
    left. rewrite Eb. cbn [bind]. exists (if negb b then Failure else PathSize), path.
    split; auto. split; auto. split; auto. split; auto. split; auto. destruct b; cbn [negb].
    + right. split; [discriminate|]. split; [discriminate|]. now apply safe_all.
    + left. split; auto. now apply safe_none.
  - destruct (select_spec cusp (length path)) as (idx & E & _ & H). rewrite E. cbn [bind].
    assert (Hi : forall i, In i idx -> 2 <= i <= Z.of_nat (length path) - 3) by (intros i I; apply H in I; apply I).
    destruct (iter_ok path idx Hi fuel (-1) tolerance path eq_refl) as [(s & out & Ei & Hs & K1 & K2 & K3)|[[U Ne]|[F En]]].
    2:{ right. left. split; auto. destruct (iter fuel path idx (-1) tolerance path) as [v| | |]; cbn [bind]; try discriminate. exfalso. now apply (Ne v). }
    2:{ right. right. right. rewrite En. split; [lia|reflexivity]. }
    rewrite Ei. cbn [bind]. destruct (safe_ok out) as [[b Eb]|[U Ne]].
    2:{ right. right. left. split; auto. destruct (safe out) as [v| | |]; cbn [bind]; try discriminate. exfalso. now apply (Ne v). }
    left. rewrite Eb. cbn [bind]. exists (if negb b then Failure else s), out. split; auto. split; auto. split; auto. split; [|split; [|lia]].
    + intros k Hk. apply K3. intros i I. apply H in I.
      destruct (Z_lt_le_dec (Z.of_nat k) (i - 1)); auto. destruct (Z_lt_le_dec (i + 1) (Z.of_nat k)); auto. exfalso. apply (Hk i); auto. lia.
    + destruct b; cbn [negb].
      * right. split; [destruct Hs; congruence|]. split; [destruct Hs; congruence|]. now apply safe_all.
      * left. split; auto. now apply safe_none.
Qed.
End Smoother.
