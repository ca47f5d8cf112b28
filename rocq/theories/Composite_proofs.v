(** Composite paths. *)
From Coq Require Import Reals Lra Psatz.
From Verif Require Import Base RealBase Bicycle_model Composite_model Composite_spec.
From Coq Require Import ZifyBool ZifyNat ZifyN.
Local Open Scope R_scope.

Section Composite.
Variables State Part : Type.
Variable part_length : Part -> R.
Variable part_final : Part -> State.
Variable part_at : Part -> R -> res State.
Variable part_truncate : Part -> R -> Part.
Variable part_direction : Part -> R -> direction.
Variable part_cusps : Part -> list R.
Notation seg := (segment Part).
Notation comp := (composite State Part).
Notation Seg := (Segment Part).
Notation path := (seg_path Part).
Notation sinit := (seg_init Part).
Notation sfinal := (seg_final Part).
Notation paths := (k_paths State Part).
Notation klen := (k_length State Part).
Notation tot := (total Part part_length).
Notation push := (push_back State Part part_length part_final).
Notation ub := (upper_bound Part).
Notation at_ := (k_at State Part part_length part_at).
Notation trunc := (k_truncate State Part part_length part_final part_truncate).
Notation dir_ := (k_direction State Part part_length part_direction).
Notation make := (compose State Part part_length part_final).
Notation arr := (arrives Part part_length).
Notation slen x := (part_length (path x)).
Notation stot l := (tot (map path l)).

Lemma tot_app a b : tot (a ++ b) = tot a + tot b.
Proof. induction a as [|p r IH]; cbn; [lra|rewrite IH; lra]. Qed.

(** Segments that follow each other. The final length of the last one may be stale after a truncation. *)
Fixpoint contig (a : R) (l : list seg) : Prop :=
  match l with
  | [] => True
  | x :: r => sinit x = a /\ 0 <= slen x /\ (r = [] -> a + slen x <= sfinal x) /\ (r <> [] -> sfinal x = a + slen x) /\ contig (a + slen x) r
  end.
Definition kwf (c : comp) : Prop := contig 0 (paths c) /\ klen c = stot (paths c).

Lemma contig_final a l : contig a l -> forall y, In y l -> a <= sfinal y.
Proof.
  revert a. induction l as [|x r IH]; intros a H y [].
  - subst y. destruct H as (_ & L & F1 & F2 & _). destruct r; [specialize (F1 eq_refl)|rewrite F2 by discriminate]; lra.
  - destruct H as (_ & L & _ & _ & H). specialize (IH _ H y H0). lra.
Qed.

Lemma contig_tot a l : contig a l -> 0 <= stot l.
Proof. revert a. induction l as [|x r IH]; intros a H; cbn; [lra|]. destruct H as (_ & L & _ & _ & H). specialize (IH _ H). lra. Qed.

Lemma ub_ok l : forall a v, contig a l -> a <= v <= a + stot l ->
  (exists pre x post, l = pre ++ x :: post /\ ub v l = Ok (length pre) /\ sinit x = a + stot pre /\ 0 <= slen x /\
     a + stot pre <= v /\ v < sfinal x /\ v <= a + stot pre + slen x) \/
  (ub v l = Ok (length l) /\ v = a + stot l).
Proof.
  induction l as [|x r IH]; intros a v H Hv.
  - right. cbn in *. split; auto. lra.
  - pose proof H as (Hi & L & F1 & F2 & Hr). cbn [upper_bound]. destruct (Rltb_spec v (sfinal x)) as [Lt|Ge].
    + left. exists [], x, r. cbn [app length map total]. split; auto. assert (A : forallb (fun y => Rltb v (sfinal y)) r = true).
      { apply forallb_forall. intros y Hy. apply Rltb_true. destruct r as [|z r']; [destruct Hy|]. rewrite F2 in Lt by discriminate.
        pose proof (contig_final _ _ Hr y Hy). lra. }
      rewrite A. split; auto. split; [lra|]. split; auto. split; [lra|]. split; auto.
      destruct r as [|z r']; [cbn in Hv; lra|]. rewrite F2 in Lt by discriminate. lra.
    + cbn [map total] in Hv. destruct r as [|z r'].
      * right. cbn [upper_bound bind]. split; auto. specialize (F1 eq_refl). cbn in *. lra.
      * assert (E : sfinal x = a + slen x) by (apply F2; discriminate).
        destruct (IH (a + slen x) v Hr ltac:(lra)) as [(pre & y & post & El & Eu & K1 & K2 & K3 & K4 & K5)|[Eu K]].
        -- left. exists (x :: pre), y, post. rewrite Eu. cbn [bind app length map total]. rewrite El. split; auto. split; auto. repeat split; auto; lra.
        -- right. rewrite Eu. cbn [bind]. split; auto. cbn [map total] in *. lra.
Qed.

(** ** Interpolation *)
Definition ratio_in (x : seg) (v a : R) : R := if Reqb (slen x) 0 then 0 else (v - a) / slen x.

Lemma nth_mid {A} (pre : list A) x post : nth_error (pre ++ x :: post) (length pre) = Some x.
Proof. rewrite nth_error_app2, Nat.sub_diag; auto. Qed.

Lemma at_cases c r : kwf c -> paths c <> [] -> 0 <= r <= 1 ->
  (exists pre x post, paths c = pre ++ x :: post /\ ub (r * klen c) (paths c) = Ok (length pre) /\ sinit x = stot pre /\ 0 <= slen x /\
     stot pre <= r * klen c /\ r * klen c < sfinal x /\ r * klen c <= stot pre + slen x /\
     at_ c r = part_at (path x) (ratio_in x (r * klen c) (stot pre)) /\
     dir_ c r = Ok (part_direction (path x) (ratio_in x (r * klen c) (stot pre)))) \/
  (exists pre x, paths c = pre ++ [x] /\ ub (r * klen c) (paths c) = Ok (length (paths c)) /\ r * klen c = klen c /\ at_ c r = part_at (path x) 1 /\ dir_ c r = UB).
Proof.
  intros [Hc Hl] Hne Hr. pose proof (contig_tot _ _ Hc) as Ht.
  destruct (ub_ok (paths c) 0 (r * klen c) Hc) as [(pre & x & post & El & Eu & K1 & K2 & K3 & K4 & K5)|[Eu K]].
  { rewrite Hl. nra. }
  - left. exists pre, x, post. rewrite Rplus_0_l in *. split; auto. split; auto. split; auto. split; auto. split; auto. split; auto. split; auto.
    unfold k_at, k_direction, find_segment. rewrite Eu. cbn [bind]. rewrite El, nth_mid. destruct (pre ++ x :: post) as [|y l] eqn:En; [destruct pre; discriminate|].
    rewrite <- En. assert (Lt : (length pre =? length (pre ++ x :: post) = false)%nat) by (rewrite app_length; cbn; lia).
    unfold ratio_in. rewrite K1. destruct (Reqb (slen x) 0); cbn [bind]; rewrite Lt; unfold vget; rewrite nth_mid; cbn [bind]; auto.
  - right. destruct (exists_last Hne) as (pre & x & E). exists pre, x. split; auto. split; auto. split; [lra|].
    unfold k_at, k_direction, find_segment. rewrite Eu. cbn [bind]. assert (N : nth_error (paths c) (length (paths c)) = None) by (apply nth_error_None; lia).
    rewrite N. cbn [bind]. unfold vget at 2. rewrite N. split; auto. rewrite Nat.eqb_refl. rewrite E. destruct (pre ++ [x]) as [|y l] eqn:En; [destruct pre; discriminate|].
    rewrite <- En. rewrite app_length, Nat.add_1_r. cbn [Nat.pred]. unfold vget. rewrite nth_mid. reflexivity.
Qed.

Lemma push_all parts : forall c, let c' := fold_left push parts c in
  map path (paths c') = map path (paths c) ++ parts /\ klen c' = klen c + tot parts /\
  k_init _ _ c' = k_init _ _ c /\ (parts <> [] -> exists p, part_final p = k_final _ _ c' /\ exists pre, parts = pre ++ [p]).
Proof.
  induction parts as [|p r IH]; intros c; cbn [fold_left].
  - rewrite app_nil_r. cbn. split; auto. split; [lra|]. split; auto. easy.
  - destruct (IH (push c p)) as (A & B & C & D). cbv zeta in *. rewrite A, B, C. cbn [push_back k_paths k_length k_init]. rewrite map_app. cbn [map app total].
    rewrite <- app_assoc. split; auto. split; [lra|]. split; auto. intros _. destruct r as [|q r'].
    + exists p. split; [reflexivity|]. now exists [].
    + destruct (D ltac:(discriminate)) as (z & E & pre & Ep). exists z. split; auto. exists (p :: pre). now rewrite Ep.
Qed.

(** A composite without stale lengths stays so when parts are appended. *)
Lemma contig_snoc a l p : contig a l -> (forall pre x, l = pre ++ [x] -> sfinal x = a + stot l) -> 0 <= part_length p ->
  contig a (l ++ [Seg (a + stot l) (a + stot l + part_length p) p]).
Proof.
  revert a. induction l as [|x r IH]; intros a H Hf Hp.
  - cbn. repeat split; auto; try easy; lra.
  - destruct H as (Hi & L & F1 & F2 & Hr). cbn [app contig]. split; auto. split; auto. split; [destruct r; discriminate|]. split.
    + intros _. destruct r as [|z r']; [|apply F2; discriminate]. specialize (Hf [] x eq_refl). cbn in Hf. rewrite Hf. lra.
    + cbn [map total]. replace (a + (slen x + stot r)) with (a + slen x + stot r) by lra. apply IH; auto.
      intros pre y E. specialize (Hf (x :: pre) y). rewrite E in *. specialize (Hf eq_refl). cbn [map total] in Hf. lra.
Qed.

Lemma make_wf dflt parts : (forall p, In p parts -> 0 <= part_length p) -> kwf (make dflt parts) /\ map path (paths (make dflt parts)) = parts /\ klen (make dflt parts) = tot parts.
Proof.
  intros Hp. unfold compose. destruct (push_all parts (k_new State Part dflt)) as (A & B & _ & _). cbv zeta in A, B. cbn in A, B.
  assert (K : klen (fold_left push parts (k_new State Part dflt)) = tot parts) by lra. split; auto. unfold kwf. rewrite A, K. split; auto. clear A B K.
  assert (G : forall c, kwf c -> (forall pre x, paths c = pre ++ [x] -> sfinal x = klen c) -> contig 0 (paths (fold_left push parts c))).
  { induction parts as [|p r IH]; intros c [W1 W2] Hf; auto. cbn [fold_left]. apply IH.
    - intros q Hq. apply Hp. now right.
    - assert (P := Hp p (or_introl eq_refl)). split.
      + cbn [push_back k_paths]. rewrite W2. pose proof (contig_snoc 0 (paths c) p W1) as S. rewrite Rplus_0_l in S. apply S; auto.
        intros pre x E. rewrite (Hf pre x E), W2. lra.
      + cbn [push_back k_paths k_length]. rewrite W2, map_app, tot_app. cbn. lra.
    - intros pre x E. cbn [push_back k_paths k_length] in *. apply app_inj_tail in E as [_ <-]. reflexivity. }
  apply G.
  - split; cbn; auto.
  - cbn. intros pre x E. destruct pre; discriminate.
Qed.

(** C42 *)
Lemma ratio_ok x v a : 0 <= slen x -> a <= v <= a + slen x -> 0 <= ratio_in x v a <= 1 /\ a + ratio_in x v a * slen x = v.
Proof.
  intros L H. unfold ratio_in. destruct (Reqb_spec (slen x) 0) as [Z|N]; [lra|]. assert (P : 0 < slen x) by lra.
  assert (E : (v - a) / slen x * slen x = v - a) by (field; lra). split; [|lra]. split.
  - apply Rmult_le_reg_r with (slen x); auto. lra.
  - apply Rmult_le_reg_r with (slen x); auto. lra.
Qed.

Lemma at_arrives c r : kwf c -> paths c <> [] -> 0 <= r <= 1 ->
  exists p s, arr (map path (paths c)) (r * klen c) p s /\ at_ c r = part_at p s.
Proof.
  intros W Hne Hr. destruct (at_cases c r W Hne Hr) as [(pre & x & post & El & _ & K1 & K2 & K3 & K4 & K5 & Ea & _)|(pre & x & El & _ & K & Ea & _)].
  - destruct (ratio_ok x (r * klen c) (stot pre)) as [A B]; [auto|lra|]. exists (path x), (ratio_in x (r * klen c) (stot pre)). split; auto.
    exists (map path pre), (map path post). rewrite El, map_app. split; auto.
  - exists (path x), 1. split; auto. exists (map path pre), []. rewrite El, map_app. split; auto. split; [lra|].
    destruct W as [_ W]. rewrite K, W, El, map_app, tot_app. cbn. lra.
Qed.

Lemma chained_tail p r : chained State Part part_length part_at (p :: r) -> chained State Part part_length part_at r.
Proof. now intros (_ & _ & H). Qed.
Lemma chained_skip a b : chained State Part part_length part_at (a ++ b) -> chained State Part part_length part_at b.
Proof. induction a as [|p a IH]; auto. intros H. apply IH. exact (chained_tail _ _ H). Qed.

(** From the end of a part over parts without length to a later part. *)
Lemma chained_zero mid : forall p q post, chained State Part part_length part_at (p :: mid ++ q :: post) -> (forall z, In z mid -> part_length z = 0) ->
  part_at p 1 = part_at q 0.
Proof.
  induction mid as [|m mid IH]; intros p q post H Hz.
  - now destruct H as (_ & H & _).
  - destruct H as (_ & E & H). cbn [app] in E. rewrite E. rewrite <- (IH m q post H); [|intros z Iz; apply Hz; now right].
    destruct H as (Z & _). symmetry. apply Z; [apply Hz; now left|lra].
Qed.

Lemma tot_zero l : (forall p, In p l -> 0 <= part_length p) -> 0 <= tot l /\ (tot l <= 0 -> forall z, In z l -> part_length z = 0).
Proof.
  induction l as [|p r IH]; intros H; cbn [total]; [split; [lra|easy]|]. assert (0 <= part_length p) by (apply H; now left).
  destruct IH as [A B]; [intros q Hq; apply H; now right|]. split; [lra|]. intros L z [<-|I]; [lra|]. apply B; auto. lra.
Qed.

Lemma arrives_unique parts d p s q t : chained State Part part_length part_at parts -> (forall p, In p parts -> 0 <= part_length p) ->
  arr parts d p s -> arr parts d q t -> part_at p s = part_at q t.
Proof.
  intros Hc Hp. assert (Main : forall pre1 post1 pre2 post2 p s q t, (length pre1 <= length pre2)%nat ->
    parts = pre1 ++ p :: post1 -> parts = pre2 ++ q :: post2 -> 0 <= s <= 1 -> 0 <= t <= 1 ->
    tot pre1 + s * part_length p = d -> tot pre2 + t * part_length q = d -> part_at p s = part_at q t).
  { clear p s q t. intros pre1 post1 pre2 post2 p s q t L E1 E2 Hs Ht D1 D2.
    assert (Ex : exists mid, pre2 = pre1 ++ mid /\ p :: post1 = mid ++ q :: post2).
    { rewrite E1 in E2. clear - L E2. revert pre2 L E2. induction pre1 as [|a pre1 IH]; intros pre2 L E2.
      - exists pre2. auto.
      - destruct pre2 as [|b pre2]; cbn in L; [lia|]. cbn in E2. injection E2 as <- E2. destruct (IH pre2 ltac:(lia) E2) as (mid & -> & E). exists mid. auto. }
    destruct Ex as (mid & -> & Em). rewrite E1 in Hc. pose proof (chained_skip _ _ Hc) as Hc1.
    assert (Lp : 0 <= part_length p) by (apply Hp; rewrite E1; apply in_elt).
    destruct mid as [|m mid].
    - cbn in Em. injection Em as -> ->. rewrite app_nil_r in D2. destruct (Req_dec (part_length q) 0) as [Z|N].
      + destruct Hc1 as (Z1 & _). rewrite (Z1 Z s Hs), (Z1 Z t Ht). reflexivity.
      + f_equal. apply Rmult_eq_reg_r with (part_length q); auto. lra.
    - cbn in Em. injection Em as -> ->. rewrite tot_app in D2. cbn [total] in D2.
      assert (Hm : forall z, In z mid -> 0 <= part_length z).
      { intros z Hz. apply Hp. rewrite E1. apply in_or_app. right. right. apply in_or_app. now left. }
      assert (Lq : 0 <= part_length q). { apply Hp. rewrite E1. apply in_or_app. right. right. apply in_elt. }
      destruct (tot_zero mid Hm) as [T0 Tz]. assert (tot mid <= 0) by nra. assert (S1 : (1 - s) * part_length m = 0) by nra. assert (T1 : t * part_length q = 0) by nra.
      transitivity (part_at m 1).
      { apply Rmult_integral in S1 as [S1|S1]; [f_equal; lra|]. destruct Hc1 as (Z1 & _). rewrite (Z1 S1 s Hs). symmetry. apply Z1; auto. lra. }
      rewrite (chained_zero mid m q post2 Hc1 (Tz H)).
      apply Rmult_integral in T1 as [T1|T1]; [f_equal; lra|]. pose proof (chained_skip mid _ (chained_tail _ _ Hc1)) as (Z1 & _). symmetry. now apply Z1. }
  intros (pre1 & post1 & E1 & Hs & D1) (pre2 & post2 & E2 & Ht & D2). destruct (Nat.le_ge_cases (length pre1) (length pre2)).
  - now apply (Main pre1 post1 pre2 post2).
  - symmetry. now apply (Main pre2 post2 pre1 post1).
Qed.

Lemma make_at dflt parts r p s : parts <> [] -> (forall p, In p parts -> 0 <= part_length p) -> chained State Part part_length part_at parts ->
  0 <= r <= 1 -> arr parts (r * tot parts) p s -> at_ (make dflt parts) r = part_at p s.
Proof.
  intros Hne Hp Hc Hr Ha. destruct (make_wf dflt parts Hp) as (W & M & L).
  destruct (at_arrives (make dflt parts) r W) as (q & t & A & E); auto.
  { intros E. apply Hne. now rewrite <- M, E. }
  rewrite M, L in A. rewrite E. symmetry. now apply (arrives_unique parts (r * tot parts)).
Qed.

(** ** Truncation *)
Lemma ub_same v x y post : v < sfinal x -> sfinal y = sfinal x -> forall pre i j, ub v (pre ++ x :: post) = Ok i -> ub v (pre ++ [y]) = Ok j -> i = j /\ (i <= length pre)%nat.
Proof.
  intros Hv Hf. induction pre as [|z pre IH]; intros i j; cbn [app upper_bound].
  - rewrite Hf. destruct (Rltb_spec v (sfinal x)); [|lra]. cbn [forallb]. destruct (forallb _ post); [|discriminate].
    intros [= <-] [= <-]. cbn. lia.
  - destruct (Rltb v (sfinal z)).
    + destruct (forallb _ (pre ++ x :: post)); [|discriminate]. destruct (forallb _ (pre ++ [y])); [|discriminate]. intros [= <-] [= <-]. cbn. lia.
    + destruct (ub v (pre ++ x :: post)) as [i'| | |]; try discriminate. destruct (ub v (pre ++ [y])) as [j'| | |]; try discriminate.
      cbn [bind]. intros [= <-] [= <-]. destruct (IH i' j' eq_refl eq_refl) as [-> L]. cbn. lia.
Qed.

Lemma contig_replace pre x post y : forall a, contig a (pre ++ x :: post) -> sinit y = sinit x -> 0 <= slen y -> sinit x + slen y <= sfinal y -> contig a (pre ++ [y]).
Proof.
  induction pre as [|z pre IH]; intros a H Hi Hl Hf.
  - destruct H as (Ha & _). cbn. split; [congruence|]. split; auto. rewrite <- Ha. split; auto. split; [easy|auto].
  - destruct H as (Ha & L & F1 & F2 & Hr). cbn [app contig]. split; auto. split; auto. split; [destruct pre; discriminate|]. split.
    + intros _. apply F2. destruct pre; discriminate.
    + now apply IH.
Qed.

Lemma same_place (x y : seg) post x1 post1 x2 post2 : forall pre pre1 pre2, length pre2 = length pre1 -> (length pre2 <= length pre)%nat ->
  pre ++ [y] = pre1 ++ x1 :: post1 -> pre ++ x :: post = pre2 ++ x2 :: post2 ->
  pre1 = pre2 /\ (pre2 = pre /\ x2 = x /\ x1 = y \/ x1 = x2).
Proof.
  induction pre as [|z pre IH]; intros pre1 pre2 Ei Li El1 El2.
  - destruct pre2; [|cbn in Li; lia]. destruct pre1; [|discriminate]. cbn in *. injection El1 as -> _. injection El2 as -> _. auto.
  - destruct pre2 as [|b pre2], pre1 as [|b1 pre1]; cbn in Ei, Li; try discriminate; cbn in El1, El2.
    + injection El1 as <- _. injection El2 as <- _. auto.
    + injection El1 as <- El1. injection El2 as <- El2. destruct (IH pre1 pre2 ltac:(lia) ltac:(lia) El1 El2) as [-> [(-> & -> & ->)| ->]]; auto.
Qed.

Lemma trunc_ok c r c' : kwf c -> 0 <= r <= 1 -> (forall x, In x (paths c) -> truncates State Part part_length part_at part_truncate (path x)) ->
  trunc c r = Ok c' ->
  kwf c' /\ klen c' = r * klen c /\ (paths c <> [] -> paths c' <> []) /\ (forall q, 0 <= q <= 1 -> at_ c' q = at_ c (r * q)) /\
  (forall x', In x' (paths c') -> exists x q, In x (paths c) /\ (path x' = path x \/ (0 <= q <= 1 /\ path x' = part_truncate (path x) q))).
Proof.
  intros W Hr Ht E. destruct (paths c) as [|x0 l0] eqn:Ep.
  { unfold k_truncate in E. rewrite Ep in E. injection E as <-. split; auto. destruct W as [_ W]. rewrite W, Ep. cbn. split; [lra|]. split; auto. split.
    - intros q Hq. unfold k_at. rewrite Ep. reflexivity.
    - intros x' Hx. rewrite ?Ep in Hx. destruct Hx. }
  rewrite <- Ep in *. assert (Hne : paths c <> []) by (rewrite Ep; discriminate).
  pose proof W as [Wc Wl]. pose proof (contig_tot _ _ Wc) as T0.
  destruct (at_cases c r W Hne Hr) as [(pre & x & post & El & Eu & K1 & K2 & K3 & K4 & K5 & _)|(pre & x & El & Eu & K & _)].
  - assert (Etr : trunc c r = Ok (Composite State Part (pre ++ [Seg (sinit x) (sfinal x) (part_truncate (path x) (ratio_in x (r * klen c) (stot pre)))]) (k_init _ _ c)
       (part_final (part_truncate (path x) (ratio_in x (r * klen c) (stot pre)))) (sinit x + part_length (part_truncate (path x) (ratio_in x (r * klen c) (stot pre)))))).
    { unfold k_truncate, find_segment. rewrite Eu. cbn [bind]. rewrite El, nth_mid. destruct (pre ++ x :: post) as [|y l] eqn:En; [destruct pre; discriminate|].
      rewrite <- En. assert (Lt : (length pre =? length (pre ++ x :: post) = false)%nat) by (rewrite app_length; cbn; lia).
      unfold ratio_in. rewrite <- K1. assert (F : firstn (length pre) (pre ++ x :: post) = pre) by (rewrite firstn_app, Nat.sub_diag, firstn_all; cbn; now rewrite app_nil_r).
      destruct (Reqb (slen x) 0); cbn [bind]; rewrite Lt; unfold vget; rewrite nth_mid; cbn [bind]; rewrite F; auto. }
    rewrite Etr in E. clear Etr. set (pr := ratio_in x (r * klen c) (stot pre)) in *. set (p' := part_truncate (path x) pr) in *.
    destruct (ratio_ok x (r * klen c) (stot pre) K2 ltac:(lra)) as [Hpr Epr]. fold pr in Hpr, Epr.
    assert (Hx : truncates State Part part_length part_at part_truncate (path x)) by (apply Ht; rewrite El; apply in_elt).
    destruct (Hx pr Hpr) as [Lp' Ap']. fold p' in Lp', Ap'. set (y := Seg (sinit x) (sfinal x) p') in *.
    assert (Ly : sinit x + slen y = r * klen c) by (cbn; rewrite Lp', K1; lra).
    assert (Py : 0 <= slen y) by (cbn; rewrite Lp'; nra).
    assert (W' : kwf c').
    { assert (c' = Composite State Part (pre ++ [y]) (k_init _ _ c) (part_final p') (sinit x + part_length p')) as -> by congruence. split.
      - cbn [k_paths]. apply contig_replace with (x := x) (post := post); auto; [now rewrite <- El|]. cbn [seg_final y]. rewrite Ly. lra.
      - cbn [k_paths k_length]. rewrite map_app, tot_app. cbn. rewrite K1. lra. }
    assert (Ec : paths c' = pre ++ [y] /\ klen c' = r * klen c) by (rewrite <- Ly; replace c' with (Composite State Part (pre ++ [y]) (k_init _ _ c) (part_final p') (sinit x + part_length p')) by congruence; auto).
    destruct Ec as [Ec1 Ec2]. assert (Hne' : paths c' <> []) by (rewrite Ec1; destruct pre; discriminate).
    split; auto. split; auto. split; auto. split.
    + intros q Hq. assert (V : q * klen c' = r * q * klen c) by (rewrite Ec2; ring). assert (Hrq : 0 <= r * q <= 1) by nra.
      assert (Vle : r * q * klen c <= r * klen c) by (apply Rmult_le_compat_r; [rewrite Wl; exact T0|nra]).
      destruct (at_cases c' q W' Hne' Hq) as [(pre1 & x1 & post1 & El1 & Eu1 & K11 & K21 & K31 & K41 & K51 & Ea1 & _)|(pre1 & x1 & El1 & Eu1 & K1' & Ea1 & _)];
      destruct (at_cases c (r * q) W Hne Hrq) as [(pre2 & x2 & post2 & El2 & Eu2 & K12 & K22 & K32 & K42 & K52 & Ea2 & _)|(pre2 & x2 & El2 & Eu2 & K2' & Ea2 & _)];
      rewrite V in *; rewrite Ec1 in Eu1; rewrite El in Eu2;
      destruct (ub_same (r * q * klen c) x y post ltac:(lra) eq_refl pre _ _ Eu2 Eu1) as [Ei Li].
      * rewrite Ea1, Ea2. assert (pre1 = pre2 /\ (pre2 = pre /\ x2 = x /\ x1 = y \/ x1 = x2)) as [-> Cx].
        { rewrite El in El2. rewrite Ec1 in El1. exact (same_place x y post x1 post1 x2 post2 pre pre1 pre2 Ei Li El1 El2). }
        destruct Cx as [(-> & -> & ->)| ->]; auto. cbn [y seg_path].
        set (v := r * q * klen c) in *.
        assert (Vin : stot pre <= v <= stot pre + slen y) by lra.
        destruct (ratio_ok y v (stot pre) Py Vin) as [Ry Eyy]. destruct (ratio_ok x v (stot pre) K2 ltac:(lra)) as [Rx Exx].
        rewrite Ap' by exact Ry. f_equal. unfold ratio_in. cbn [y seg_path]. rewrite Lp'.
        destruct (Reqb_spec (slen x) 0) as [Z|N].
        -- rewrite Z, Rmult_0_r. destruct (Reqb_spec 0 0); [ring|lra].
        -- destruct (Reqb_spec (pr * slen x) 0) as [Z|N'].
           ++ assert (v = stot pre) by (cbn in Ly; rewrite Lp' in Ly; cbn in Vin; rewrite Lp' in Vin; lra). rewrite H. unfold Rminus. rewrite Rplus_opp_r. unfold Rdiv. ring.
           ++ field. split; auto. intros Zp. apply N'. rewrite Zp. ring.
      * exfalso. rewrite app_length in Li. cbn in Li. lia.
      * exfalso. rewrite Ei, app_length in Li. cbn in Li. lia.
      * exfalso. rewrite Ei, app_length in Li. cbn in Li. lia.
    + intros x' Hx'. rewrite Ec1 in Hx'. apply in_app_or in Hx' as [I|[<-|[]]].
      * exists x', 0. split; [rewrite El; apply in_or_app; now left|now left].
      * exists x, pr. split; [rewrite El; apply in_elt|]. right. auto.
  - assert (c' = c) as ->.
    { unfold k_truncate, find_segment in E. rewrite Eu in E. cbn [bind] in E. assert (N : nth_error (paths c) (length (paths c)) = None) by (apply nth_error_None; lia).
      rewrite N in E. cbn [bind] in E. rewrite Nat.eqb_refl in E. destruct (paths c); congruence. }
    split; auto. split; [lra|]. split; auto. split.
    + intros q Hq. unfold k_at, find_segment. replace (r * q * klen c) with (q * klen c) by (rewrite <- K at 1; ring). reflexivity.
    + intros x' Hx'. exists x', 0. auto.
Qed.

Lemma trunc_total c r : kwf c -> 0 <= r <= 1 -> exists c', trunc c r = Ok c'.
Proof.
  intros W Hr. destruct (paths c) as [|x0 l0] eqn:Ep.
  { unfold k_truncate. rewrite Ep. eauto. }
  assert (Hne : paths c <> []) by (rewrite Ep; discriminate).
  unfold k_truncate, find_segment. rewrite Ep. rewrite <- Ep.
  destruct (at_cases c r W Hne Hr) as [(pre & x & post & El & Eu & _)|(pre & x & El & Eu & _)]; rewrite Eu; cbn [bind].
  - rewrite El, nth_mid. assert (Lt : (length pre =? length (pre ++ x :: post) = false)%nat) by (rewrite app_length; cbn; lia).
    destruct (Reqb (slen x) 0); cbn [bind]; rewrite Lt; unfold vget; rewrite nth_mid; cbn [bind]; eauto.
  - assert (N : nth_error (paths c) (length (paths c)) = None) by (apply nth_error_None; lia). rewrite N. cbn [bind]. rewrite Nat.eqb_refl. eauto.
Qed.

(** ** Cusps *)
Lemma direction_eqb_spec a b : direction_eqb a b = true <-> a = b.
Proof. destruct a, b; cbn; split; congruence. Qed.

Lemma cusp_loop_spec tl l : forall len prev r, In r (cusp_loop Part part_length part_direction part_cusps tl l len prev) <->
  (exists p, In p (map path l) /\ In r (part_cusps p)) \/
  (exists pre x post, l = pre ++ x :: post /\ r = (len + stot pre) / tl /\
     part_direction (path x) 0 <> match rev pre with [] => prev | y :: _ => part_direction (path y) 1 end).
Proof.
  induction l as [|x l IH]; intros len prev r; cbn [cusp_loop].
  - split; [easy|]. intros [(p & [] & _)|(pre & x & post & E & _)]. destruct pre; discriminate.
  - rewrite !in_app_iff, IH. cbn [map In]. split.
    + intros [H|[H|[(p & I & H)|(pre & y & post & -> & -> & H)]]].
      * destruct (direction_eqb (part_direction (path x) 0) prev) eqn:D; [destruct H|]. destruct H as [<-|[]]. right. exists [], x, l. split; auto. cbn. split; [f_equal; lra|].
        intros E. apply direction_eqb_spec in E. congruence.
      * left. exists (path x). auto.
      * left. exists p. auto.
      * right. exists (x :: pre), y, post. split; auto. cbn [map total rev]. split; [f_equal; lra|].
        destruct (rev pre) as [|z zs] eqn:Er; cbn [app]; auto.
    + intros [(p & [<-|I] & H)|([|z pre] & y & post & E & -> & H)]; auto.
      * right. right. left. exists p. auto.
      * injection E as -> ->. left. cbn in H |- *. destruct (direction_eqb (part_direction (path y) 0) prev) eqn:D.
        -- apply direction_eqb_spec in D. contradiction.
        -- left. f_equal. lra.
      * injection E as <- ->. right. right. right. exists pre, y, post. split; auto. cbn [map total rev] in *. split; [f_equal; lra|].
        destruct (rev pre) as [|w ws] eqn:Er; cbn [app] in *; auto.
Qed.

(** What is returned: the changes of direction between parts, and the ratios of the cusps of the parts, unchanged. *)
Lemma cusps_spec dflt parts r : (forall p, In p parts -> 0 <= part_length p) ->
  (In r (k_cusps State Part part_length part_direction part_cusps (make dflt parts)) <->
  (exists p, In p parts /\ In r (part_cusps p)) \/
  (exists pre p q post, parts = pre ++ p :: q :: post /\ part_direction p 1 <> part_direction q 0 /\ r = tot (pre ++ [p]) / tot parts)).
Proof.
  intros Hp. destruct (make_wf dflt parts Hp) as (W & M & L). unfold k_cusps. destruct (paths (make dflt parts)) as [|s l] eqn:Ep.
  { cbn in M. subst parts. split; [easy|]. intros [(p & [] & _)|(pre & p & q & post & E & _)]. destruct pre; discriminate. }
  rewrite <- Ep in *. rewrite cusp_loop_spec, M, L. split; (intros [H|H]; [now left|right]).
  - destruct H as (pre & x & post & E & -> & H). destruct pre as [|z pre'] using rev_ind.
    { rewrite Ep in E. injection E as -> ->. cbn in H. congruence. }
    clear IHpre'. rewrite rev_app_distr in H. cbn in H. rewrite E in M. rewrite <- app_assoc, map_app in M. cbn in M.
    exists (map path pre'), (path z), (path x), (map path post). split; auto. split; auto. f_equal. rewrite map_app, tot_app, tot_app. cbn. lra.
  - destruct H as (pre & p & q & post & E & H & ->). rewrite E in M. apply map_eq_app in M as (l1 & l2 & El & M1 & M2).
    destruct l2 as [|z l2]; [discriminate|]. injection M2 as Mz M2. destruct l2 as [|x l2]; [discriminate|]. injection M2 as Mx M2.
    exists (l1 ++ [z]), x, l2. rewrite <- app_assoc. split; [now rewrite E|]. split.
    + rewrite map_app, M1. cbn [map]. rewrite Mz. f_equal. lra.
    + rewrite rev_app_distr. cbn. rewrite Mz, Mx. congruence.
Qed.

Lemma built_wf good c : lawful State Part part_length part_at part_truncate good -> kbuilt State Part part_length part_final part_truncate good c ->
  kwf c /\ forall x, In x (paths c) -> good (path x).
Proof.
  intros Hg H. induction H as [dflt parts Hp|c r c' H [W IH] Hr E].
  - destruct (make_wf dflt parts) as (W & M & _); [intros p Ip; apply Hg; auto|]. split; auto. intros x Ix. apply Hp. rewrite <- M. now apply in_map.
  - destruct (trunc_ok c r c' W Hr) as (W' & _ & _ & _ & P); auto.
    { intros x Ix. apply Hg, IH, Ix. }
    split; auto. intros x' Ix. destruct (P x' Ix) as (x & q & I & [->|[Hq ->]]); [now apply IH|]. apply Hg; auto.
Qed.

Lemma built_truncate good c r : lawful State Part part_length part_at part_truncate good -> kbuilt State Part part_length part_final part_truncate good c -> 0 <= r <= 1 ->
  exists c', trunc c r = Ok c' /\ klen c' = r * klen c /\ forall q, 0 <= q <= 1 -> at_ c' q = at_ c (r * q).
Proof.
  intros Hg H Hr. destruct (built_wf good c Hg H) as [W P]. destruct (trunc_total c r W Hr) as [c' E]. exists c'. split; auto.
  destruct (trunc_ok c r c' W Hr) as (W' & L & _ & A & _); auto. intros x Ix. apply Hg, P, Ix.
Qed.

Lemma contig_split a pre x post : contig a (pre ++ x :: post) -> post <> [] -> sfinal x = a + stot pre + slen x.
Proof.
  revert a. induction pre as [|z pre IH]; intros a H Hp.
  - destruct H as (_ & _ & _ & F & _). cbn. rewrite F by auto. lra.
  - destruct H as (_ & _ & _ & _ & H). cbn [map total]. rewrite (IH _ H Hp). lra.
Qed.

Lemma make_direction dflt parts r : (forall p, In p parts -> 0 <= part_length p) -> 0 < tot parts -> 0 <= r < 1 ->
  exists p s, arr parts (r * tot parts) p s /\ s < 1 /\ 0 < part_length p /\ dir_ (make dflt parts) r = Ok (part_direction p s).
Proof.
  intros Hp Ht Hr. destruct (make_wf dflt parts Hp) as (W & M & L). assert (Hne : paths (make dflt parts) <> []).
  { intros E. rewrite E in M. cbn in M. rewrite <- M in Ht. cbn in Ht. lra. }
  destruct (at_cases _ r W Hne ltac:(lra)) as [(pre & x & post & El & Eu & K1 & K2 & K3 & K4 & K5 & _ & Ed)|(pre & x & _ & _ & K & _)].
  2:{ rewrite L in K. nra. }
  rewrite L in *. assert (V : r * tot parts < stot pre + slen x).
  { destruct post as [|y post'].
    - rewrite El in M. assert (tot parts = stot pre + slen x) as E by (rewrite <- M, map_app, tot_app; cbn; lra). rewrite <- E. nra.
    - destruct W as [W _]. rewrite El in W. pose proof (contig_split 0 pre x _ W ltac:(discriminate)). lra. }
  destruct (ratio_ok x (r * tot parts) (stot pre) K2 ltac:(lra)) as [A B]. assert (P : 0 < slen x) by lra.
  exists (path x), (ratio_in x (r * tot parts) (stot pre)). split; [|split; [nra|split; auto]].
  exists (map path pre), (map path post). split; [|split; auto]. transitivity (map path (paths (make dflt parts))); [now symmetry|]. rewrite El. apply map_app.
Qed.

Lemma make_direction_end dflt parts : (forall p, In p parts -> 0 <= part_length p) -> dir_ (make dflt parts) 1 = UB.
Proof.
  intros Hp. destruct (make_wf dflt parts Hp) as (W & M & L). destruct (paths (make dflt parts)) as [|s l] eqn:Ep.
  { unfold k_direction, find_segment. rewrite Ep. reflexivity. }
  assert (Hne : paths (make dflt parts) <> []) by (rewrite Ep; discriminate). rewrite <- Ep in *.
  destruct (at_cases _ 1 W Hne ltac:(lra)) as [(pre & x & post & El & Eu & K1 & K2 & K3 & K4 & K5 & _)|(pre & x & _ & _ & _ & _ & E)]; auto.
  exfalso. clear K1. rewrite Rmult_1_l, L in *. assert (Ft : forall parts c, kwf c -> (forall pre x, paths c = pre ++ [x] -> sfinal x = klen c) ->
    forall pre x, paths (fold_left push parts c) = pre ++ [x] -> sfinal x = klen (fold_left push parts c)).
  { clear. induction parts as [|p r IH]; intros c W H; auto. cbn [fold_left]. intros pre x. 
    assert (G : forall r c pre x, r <> [] -> paths (fold_left push r c) = pre ++ [x] -> sfinal x = klen (fold_left push r c)).
    { clear. induction r as [|p r IH]; intros c pre x Hr E; [easy|]. cbn [fold_left] in *. destruct r as [|q r].
      - cbn in *. apply app_inj_tail in E as [_ <-]. reflexivity.
      - eapply IH; eauto. discriminate. }
    destruct r as [|q r]; [|apply G; discriminate]. cbn. intros E. apply app_inj_tail in E as [_ <-]. reflexivity. }
  destruct post as [|y post'].
  - assert (sfinal x = klen (make dflt parts)); [|lra]. unfold compose in *. eapply (Ft parts (k_new State Part dflt)); eauto.
    + split; cbn; auto.
    + cbn. intros p0 x0 E. destruct p0; discriminate.
  - destruct W as [W _]. rewrite El in W. pose proof (contig_split 0 pre x _ W ltac:(discriminate)) as F.
    assert (T : tot parts = stot pre + slen x + stot (y :: post')) by (rewrite <- M, El, map_app, tot_app; cbn; lra).
    assert (0 <= stot (y :: post')); [|lra]. assert (G : forall l a pre, contig a (pre ++ l) -> 0 <= stot l).
    { clear. intros l a pre. revert a. induction pre as [|z pre IH]; intros a H; [now apply contig_tot in H|]. destruct H as (_ & _ & _ & _ & H). eauto. }
    apply (G (y :: post') 0 (pre ++ [x])). rewrite <- app_assoc. exact W.
Qed.
End Composite.
