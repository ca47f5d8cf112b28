(** The search with pointers computes what the search without pointers computes; deletion and traversal of its tree. *)
From Verif Require Import Base Frontier_model FrontierRel_proofs AStar_model AStar_spec AStar_proofs AStarMem_model AStarMem_spec.

Lemma NoDup_app_ok {B} (l l' : list B) : NoDup l -> NoDup l' -> (forall x, In x l -> In x l' -> False) -> NoDup (l ++ l').
Proof.
  induction l as [|a l IH]; cbn; intros H H' D; auto. inversion H; subst. constructor.
  - rewrite in_app_iff. intros [I|I]; [auto|]. eapply D; [now left|auto].
  - apply IH; auto. intros x Ix. apply (D x). now right.
Qed.

Lemma F2_impl {X Y} (R R' : X -> Y -> Prop) l l' : (forall x y, R x y -> R' x y) -> Forall2 R l l' -> Forall2 R' l l'.
Proof. intros H. induction 1; auto. Qed.

Section Mem.
Context {S A C P : Type}.
Context (eqs : S -> S -> bool) (ltb : C -> C -> bool) (add : C -> C -> C) (zero : C) (dflt : A).
Notation node := (AStar_model.node S A C).
Notation memory := (AStarMem_model.memory S A C).
Notation obj := (AStarMem_model.obj S A C).
Notation mstate := (AStarMem_model.mstate S A C P).
Notation n_g := (@AStar_model.n_g S A C zero).
Notation n_f := (@AStar_model.n_f S A C zero).
Notation n_cmp := (@AStar_model.n_cmp S A C ltb zero).
Notation n_eq := (@AStar_model.n_eq S A C eqs).
Notation p_cmp := (@AStarMem_model.p_cmp S A C ltb).
Notation p_eq := (@AStarMem_model.p_eq S A C eqs).

(** ** Trees *)
Record tree (m : memory) (root : nat) : Prop := {
  t_next : forall a o, live m a = Some o -> a < next m;
  t_root : exists o, live m root = Some o /\ ob_parent o = None;
  t_parent : forall a o, live m a = Some o -> a <> root ->
    exists p op, ob_parent o = Some p /\ p < a /\ live m p = Some op /\ In a (ob_children op);
  t_child : forall p op c, live m p = Some op -> In c (ob_children op) ->
    p < c /\ exists oc, live m c = Some oc /\ ob_parent oc = Some p;
  t_nodup : forall p op, live m p = Some op -> NoDup (ob_children op)
}.

(** [b] is reached from [a] going down: from [b] going up along the parents. *)
Inductive desc (m : memory) (a : nat) : nat -> Prop :=
| desc_refl : desc m a a
| desc_up b o p : live m b = Some o -> ob_parent o = Some p -> desc m a p -> desc m a b.

Section Tree.
Variables (m : memory) (root : nat).
Hypothesis T : tree m root.

Lemma parent_child p op c : live m p = Some op -> In c (ob_children op) -> desc m p c.
Proof. intros E I. destruct (t_child m root T p op c E I) as (_ & oc & Ec & Ep). econstructor; eauto. constructor. Qed.

Lemma up_parent b o p : live m b = Some o -> ob_parent o = Some p -> p < b /\ exists op, live m p = Some op /\ In b (ob_children op).
Proof.
  intros E Ep. destruct (Nat.eq_dec b root) as [->|N].
  - destruct (t_root m root T) as (o' & E' & Q). congruence.
  - destruct (t_parent m root T b o E N) as (p' & op & Ep' & L & El & I). assert (p' = p) by congruence. subst. eauto.
Qed.

Lemma desc_le a b : desc m a b -> a <= b.
Proof. induction 1 as [|b o p E Ep _ IH]; auto. destruct (up_parent b o p E Ep) as (L & _). lia. Qed.

Lemma desc_trans a b c : desc m a b -> desc m b c -> desc m a c.
Proof. intros H. induction 1; auto. econstructor; eauto. Qed.

Lemma desc_live a b : desc m a b -> (exists o, live m a = Some o) -> exists o, live m b = Some o.
Proof. destruct 1; eauto. Qed.

Lemma desc_compare a a' b : desc m a b -> desc m a' b -> desc m a a' \/ desc m a' a.
Proof.
  induction 1 as [|b o p E Ep H IH]; intros H'; auto. inversion H' as [|b' o' p' E' Ep' H'']; subst; [left; econstructor; eauto|].
  apply IH. assert (p' = p) by congruence. now subst.
Qed.

Lemma desc_step a b : desc m a b -> b = a \/ exists oa c, live m a = Some oa /\ In c (ob_children oa) /\ desc m c b.
Proof.
  induction 1 as [|b o p E Ep H IH]; auto. right. destruct (up_parent b o p E Ep) as (_ & op & El & I). destruct IH as [->|(oa & c & Ea & Ic & D)].
  - exists op, b. split; [auto|]. split; [auto|constructor].
  - exists oa, c. split; [auto|]. split; [auto|]. econstructor; eauto.
Qed.

Lemma siblings_apart p op c c' b : live m p = Some op -> In c (ob_children op) -> In c' (ob_children op) -> c <> c' -> desc m c b -> desc m c' b -> False.
Proof.
  intros E I I' N D D'.
  assert (K : forall x y, In x (ob_children op) -> In y (ob_children op) -> x <> y -> desc m x y -> False).
  { intros x y Ix Iy Nxy Dxy. inversion Dxy as [|y' oy q Ey Ep Dq]; subst; [congruence|].
    destruct (t_child m root T p op y E Iy) as (_ & oy' & Ey' & Ep'). assert (q = p) by congruence. subst q. apply desc_le in Dq.
    destruct (t_child m root T p op x E Ix) as (L & _). lia. }
  destruct (desc_compare c c' b D D'); eauto.
Qed.

Lemma root_desc : forall a o, live m a = Some o -> desc m root a.
Proof.
  intros a. induction a as [a IH] using (well_founded_induction lt_wf). intros o E. destruct (Nat.eq_dec a root) as [->|N]; [constructor|].
  destruct (t_parent m root T a o E N) as (p & op & Ep & L & El & I). econstructor; eauto.
Qed.

Lemma desc_owned a b : (exists o, live m a = Some o) -> (desc m a b <-> owned m a b).
Proof.
  intros [o E]. split.
  - induction 1 as [|b ob p Eb Ep H IH]; [econstructor; eauto|]. destruct (up_parent b ob p Eb Ep) as (_ & op & El & I). econstructor; eauto.
  - induction 1 as [|x ox c H IH Ex I]; [constructor|]. eapply desc_trans; [exact IH|]. eapply parent_child; eauto.
Qed.

(** *** Deletion *)
Lemma destroy_spec fuel : forall a m1, next m - a < fuel -> (exists o, live m a = Some o) -> (forall b, desc m a b -> live m1 b = live m b) ->
  exists m2, destroy fuel m1 a = Ok m2 /\ next m2 = next m1 /\
    (forall b, desc m a b -> live m2 b = None) /\ (forall b, ~ desc m a b -> live m2 b = live m1 b).
Proof.
  induction fuel as [|k IH]; intros a m1 F [o E] Ag; [lia|]. cbn [destroy]. unfold load. rewrite (Ag a (desc_refl m a)), E. cbn [bind].
  pose proof (t_next m root T a o E) as La.
  match goal with |- context [?f (ob_children o) m1] => set (each := f) end.
  assert (HE : forall l, NoDup l -> incl l (ob_children o) -> forall m1, (forall c b, In c l -> desc m c b -> live m1 b = live m b) ->
    exists m2, each l m1 = Ok m2 /\ next m2 = next m1 /\ (forall c b, In c l -> desc m c b -> live m2 b = None) /\
      (forall b, (forall c, In c l -> ~ desc m c b) -> live m2 b = live m1 b)).
  { clear m1 Ag. induction l as [|c l IHl]; intros ND HI m1 Ag.
    - exists m1. cbn. repeat split; auto. intros c b [].
    - inversion ND as [|? ? Nc ND']; subst. assert (Ic : In c (ob_children o)) by (apply HI; now left).
      destruct (t_child m root T a o c E Ic) as (Lc & oc & Ec & Epc).
      destruct (IH c m1) as (m2 & E2 & N2 & D2 & K2); [lia|eauto|intros b D; apply (Ag c b); [now left|auto]|].
      destruct (IHl ND' (fun x Hx => HI x (or_intror Hx)) m2) as (m3 & E3 & N3 & D3 & K3).
      { intros c' b I' D'. rewrite K2; [apply (Ag c' b); [now right|auto]|]. intros D. apply (siblings_apart a o c c' b E Ic (HI c' (or_intror I'))); auto. intros ->. auto. }
      exists m3. split; [change (each (c :: l) m1) with (bind (destroy k m1 c) (fun m' => each l m')); rewrite E2; exact E3|].
      split; [congruence|]. split.
      + intros x b [<-|Ix] Dx; [|now apply (D3 x)]. rewrite K3; [now apply D2|]. intros c' I' D'.
        apply (siblings_apart a o c c' b E Ic (HI c' (or_intror I'))); auto. intros ->. auto.
      + intros b Nb. rewrite K3; [|intros x Ix; apply Nb; now right]. apply K2. apply Nb. now left. }
  destruct (HE (ob_children o) (t_nodup m root T a o E) (fun x H => H) m1) as (m2 & E2 & N2 & D2 & K2).
  { intros c b Ic D. apply Ag. eapply desc_trans; [eapply parent_child; eauto|auto]. }
  rewrite E2. cbn [bind]. eexists. split; [reflexivity|]. cbn [next live]. split; [auto|]. unfold m_upd. split.
  - intros b D. destruct (Nat.eqb_spec b a); auto. destruct (desc_step a b D) as [->|(oa & c & Ea & Ic & Dc)]; [congruence|].
    apply (D2 c b); auto. congruence.
  - intros b Nb. destruct (Nat.eqb_spec b a) as [->|Na]; [destruct Nb; constructor|]. apply K2. intros c Ic D. apply Nb.
    eapply desc_trans; [eapply parent_child; eauto|auto].
Qed.

Lemma delete_tree : exists m2, delete m root = Ok m2 /\ next m2 = next m /\ forall b, live m2 b = None.
Proof.
  destruct (t_root m root T) as (o & E & _). unfold delete. destruct (destroy_spec (Datatypes.S (next m)) root m) as (m2 & E2 & N2 & D2 & K2); [lia|eauto|auto|].
  exists m2. split; [auto|]. split; [auto|]. intros b. destruct (live m b) as [ob|] eqn:Eb.
  - apply D2. eapply root_desc; eauto.
  - rewrite K2; auto. intros D. destruct (desc_live root b D) as [? ?]; [eauto|congruence].
Qed.

(** *** Traversal *)
Lemma traverse_spec fuel : forall a, next m - a < fuel -> (exists o, live m a = Some o) ->
  exists l, traverse fuel m a = Ok (a :: l) /\ NoDup (a :: l) /\ forall b, In b (a :: l) <-> desc m a b.
Proof.
  induction fuel as [|k IH]; intros a F [o E]; [lia|]. cbn [traverse]. unfold load. rewrite E. cbn [bind].
  pose proof (t_next m root T a o E) as La.
  match goal with |- context [?f (ob_children o)] => set (each := f) end.
  assert (HE : forall l, NoDup l -> incl l (ob_children o) ->
    exists x, each l = Ok x /\ NoDup x /\ forall b, In b x <-> exists c, In c l /\ desc m c b).
  { induction l as [|c l IHl]; intros ND HI.
    - exists []. split; [reflexivity|]. split; [constructor|]. intros b. split; [intros []|intros (c & [] & _)].
    - inversion ND as [|? ? Nc ND']; subst. assert (Ic : In c (ob_children o)) by (apply HI; now left).
      destruct (t_child m root T a o c E Ic) as (Lc & oc & Ec & Epc).
      destruct (IH c) as (x & Ex & NDx & Hx); [lia|eauto|]. destruct (IHl ND' (fun y Hy => HI y (or_intror Hy))) as (y & Ey & NDy & Hy).
      exists ((c :: x) ++ y). split; [|split].
      + change (each (c :: l)) with (bind (traverse k m c) (fun x => bind (each l) (fun y => Ok (x ++ y)))). rewrite Ex. cbn [bind]. rewrite Ey. reflexivity.
      + apply NoDup_app_ok; auto. intros b Hb Hb'. apply Hx in Hb. apply Hy in Hb' as (c' & I' & D').
        apply (siblings_apart a o c c' b E Ic (HI c' (or_intror I'))); auto. intros ->. auto.
      + intros b. rewrite in_app_iff, Hx, Hy. split.
        * intros [D|(c' & I' & D')]; [exists c; split; [now left|auto]|exists c'; split; [now right|auto]].
        * intros (c' & [<-|I'] & D'); [now left|right; eauto]. }
  destruct (HE (ob_children o) (t_nodup m root T a o E) (fun x H => H)) as (x & Ex & NDx & Hx). rewrite Ex. cbn [bind].
  exists x. split; [reflexivity|]. split.
  - constructor; auto. intros I. apply Hx in I as (c & Ic & D). apply desc_le in D. destruct (t_child m root T a o c E Ic) as (L & _). lia.
  - intros b. cbn [In]. rewrite Hx. split.
    + intros [<-|(c & Ic & D)]; [constructor|]. eapply desc_trans; [eapply parent_child; eauto|auto].
    + intros D. destruct (desc_step a b D) as [->|(oa & c & Ea & Ic & Dc)]; [now left|]. right. exists c. split; [congruence|auto].
Qed.
End Tree.

(** ** Pointers and chains of nodes *)
Fixpoint repr (m : memory) (a : nat) (n : node) : Prop :=
  match n with
  | Root s => live m a <> None /\ forall o, live m a = Some o -> ob_state o = s /\ ob_action o = dflt /\ ob_g o = zero /\ ob_f o = zero /\ ob_parent o = None
  | Child s act g f p => live m a <> None /\ forall o, live m a = Some o -> ob_state o = s /\ ob_action o = act /\ ob_g o = g /\ ob_f o = f /\
      exists pa, ob_parent o = Some pa /\ repr m pa p
  end.

Lemma repr_data m a n : repr m a n ->
  exists o, live m a = Some o /\ ob_state o = n_state n /\ ob_action o = n_action dflt n /\ ob_g o = n_g n /\ ob_f o = n_f n.
Proof.
  destruct n as [s|s act g f p]; cbn; intros (N & H); destruct (live m a) as [o|]; try congruence; exists o; destruct (H o eq_refl) as (? & ? & ? & ? & ?); auto.
Qed.

Definition ext (m m' : memory) : Prop := forall a o, live m a = Some o ->
  exists o', live m' a = Some o' /\ ob_state o' = ob_state o /\ ob_action o' = ob_action o /\ ob_g o' = ob_g o /\ ob_f o' = ob_f o /\ ob_parent o' = ob_parent o.

Lemma ext_refl m : ext m m.
Proof. intros a o E. exists o. repeat (split; auto). Qed.
Lemma ext_trans m1 m2 m3 : ext m1 m2 -> ext m2 m3 -> ext m1 m3.
Proof.
  intros H H' a o E. destruct (H a o E) as (o' & E' & ? & ? & ? & ? & ?). destruct (H' a o' E') as (o'' & E'' & ? & ? & ? & ? & ?).
  exists o''. repeat split; congruence.
Qed.

Lemma repr_ext m m' n : ext m m' -> forall a, repr m a n -> repr m' a n.
Proof.
  intros X. induction n as [s|s act g f p IH]; cbn; intros a (N & H); destruct (live m a) as [o|] eqn:E; try congruence; destruct (X a o E) as (o' & E' & X1 & X2 & X3 & X4 & X5);
    rewrite E'; (split; [congruence|]); intros o'' Q; injection Q as <-; destruct (H o eq_refl) as (H1 & H2 & H3 & H4 & H5).
  - repeat split; congruence.
  - repeat (split; [congruence|]). destruct H5 as (pa & H5 & H6). exists pa. split; [congruence|auto].
Qed.

Lemma repr_Child m a o s act g f p pa : live m a = Some o -> ob_state o = s -> ob_action o = act -> ob_g o = g -> ob_f o = f -> ob_parent o = Some pa -> repr m pa p ->
  repr m a (Child s act g f p).
Proof. intros E. intros. cbn. rewrite E. split; [congruence|]. intros o' Q. injection Q as <-. repeat (split; [assumption|]). eauto. Qed.

Lemma fr_rel_mono {X Y} (R R' : X -> Y -> Prop) f f' : (forall x y, R x y -> R' x y) -> fr_rel _ _ R f f' -> fr_rel _ _ R' f f'.
Proof. intros H [Hv Hs]. split; eapply F2_impl; eauto. Qed.

(** ** Functions of the frontier *)
Definition faithful (m : memory) (R : nat -> node -> Prop) : Prop :=
  forall x y, R x y -> exists o, live m x = Some o /\ ob_state o = n_state y /\ ob_f o = n_f y.

Lemma repr_faithful m : faithful m (repr m).
Proof. intros x y H. destruct (repr_data m x y H) as (o & ? & ? & _ & _ & ?). eauto. Qed.

Lemma cmp_faithful m R : faithful m R -> forall a a' b b', R a a' -> R b b' -> p_cmp m a b = n_cmp a' b'.
Proof.
  intros F a a' b b' Ha Hb. destruct (F a a' Ha) as (o & E & _ & Ef). destruct (F b b' Hb) as (o' & E' & _ & Ef').
  unfold AStarMem_model.p_cmp, AStar_model.n_cmp. rewrite E, E'. congruence.
Qed.
Lemma eq_faithful m R : faithful m R -> forall a a' b b', R a a' -> R b b' -> p_eq m a b = n_eq a' b'.
Proof.
  intros F a a' b b' Ha Hb. destruct (F a a' Ha) as (o & E & Es & _). destruct (F b b' Hb) as (o' & E' & Es' & _).
  unfold AStarMem_model.p_eq, AStar_model.n_eq. rewrite E, E'. congruence.
Qed.

Lemma looking_ok {B} m R l fr fr' (k : res B) : faithful m R -> fr_rel _ _ R fr fr' -> (forall x, In x l -> exists y, R x y) -> looking m l fr k = k.
Proof.
  intros F [Hv Hs] Hl. unfold looking. replace (forallb (alive m) (l ++ vec fr ++ set fr)) with true; auto. symmetry. apply forallb_forall.
  assert (K : forall x, (exists y, R x y) -> alive m x = true).
  { intros x (y & H). destruct (F x y H) as (o & E & _). unfold alive. now rewrite E. }
  assert (G : forall v v', Forall2 R v v' -> forall x, In x v -> exists y, R x y).
  { induction 1 as [|u u' v v' H1 H2 IH]; intros x []; subst; eauto. }
  intros x I. apply K. rewrite !in_app_iff in I. destruct I as [I|[I|I]]; eauto.
Qed.

(** ** One search *)
Section Search.
Variables (h : S -> C) (succ : P -> S -> list (S * A * C) * P) (issol : S -> bool) (guard : S -> S -> bool) (graph : bool) (init : S) (root : nat).
Notation chain := (AStar_proofs.chain add zero h succ init).
Notation ms_expand_one := (ms_expand_one eqs ltb add h guard graph).
Notation expand_one := (expand_one eqs ltb add zero h guard graph).

Definition all_chain (m : memory) : Prop := forall a o, live m a = Some o -> exists n, repr m a n /\ chain n.
Record inv (m : memory) (fr : frontier nat) (fr' : frontier node) : Prop := {
  i_tree : tree m root;
  i_chain : all_chain m;
  i_front : fr_rel _ _ (repr m) fr fr'
}.

Lemma upd_same (f : nat -> option obj) a o : m_upd f a o a = o.
Proof. unfold m_upd. now rewrite Nat.eqb_refl. Qed.
Lemma upd_other (f : nat -> option obj) a o b : b <> a -> m_upd f a o b = f b.
Proof. intros H. unfold m_upd. now rewrite (proj2 (Nat.eqb_neq _ _) H). Qed.

(** A new node, and what becomes of it. *)
Lemma new_deleted m o : tree m root -> ob_children o = [] ->
  exists m2, delete (fst (allocate m o)) (snd (allocate m o)) = Ok m2 /\ (forall b, live m2 b = live m b) /\ next m < next m2.
Proof.
  intros T Ec. assert (Nn : live m (next m) = None) by (destruct (live m (next m)) as [x|] eqn:E; auto; apply (t_next m root T) in E; lia).
  unfold allocate, delete. cbn [fst snd next]. cbn [destroy]. unfold load. cbn [live]. unfold m_upd at 1. rewrite Nat.eqb_refl. cbn [bind]. rewrite Ec. cbn [bind].
  eexists. split; [reflexivity|]. cbn [live next]. split; [|lia]. intros b. unfold m_upd. destruct (Nat.eqb_spec b (next m)); subst; auto.
Qed.

Lemma tree_same m m2 : (forall b, live m2 b = live m b) -> next m <= next m2 -> tree m root -> tree m2 root.
Proof.
  intros L N [T1 T2 T3 T4 T5]. constructor.
  - intros a o. rewrite L. intros E. apply T1 in E. lia.
  - destruct T2 as (o & E & Ep). exists o. now rewrite L.
  - intros a o E Na. rewrite L in E. destruct (T3 a o E Na) as (p & op & H). exists p, op. now rewrite L.
  - intros p op c E I. rewrite L in E. destruct (T4 p op c E I) as (Lt & oc & H). split; auto. exists oc. now rewrite L.
  - intros p op. rewrite L. apply T5.
Qed.

Lemma same_ext m m2 : (forall b, live m2 b = live m b) -> ext m m2.
Proof. intros L a o E. exists o. rewrite L. repeat (split; auto). Qed.

Lemma inv_same m m2 fr fr' : (forall b, live m2 b = live m b) -> next m <= next m2 -> inv m fr fr' -> inv m2 fr fr'.
Proof.
  intros L N [I1 I2 I3]. pose proof (same_ext m m2 L) as X. constructor; [now apply (tree_same m)| |].
  - intros a o E. rewrite L in E. destruct (I2 a o E) as (n & R & K). exists n. split; [eapply repr_ext; eauto|auto].
  - eapply fr_rel_mono; [|exact I3]. intros x y. now apply repr_ext.
Qed.

Lemma new_attached m o a n act c cs : tree m root -> all_chain m -> repr m a n -> chain n -> trans succ (n_state n) act c cs ->
  o = Obj cs act (add (n_g n) c) (add (add (n_g n) c) (h cs)) None [] ->
  exists m2, add_child (fst (allocate m o)) a (snd (allocate m o)) = Ok m2 /\ tree m2 root /\ all_chain m2 /\ ext m m2 /\
    repr m2 (snd (allocate m o)) (child_of add zero h n (cs, act, c)).
Proof.
  intros T AC R Hn Ht ->. destruct (repr_data m a n R) as (oa & Ea & Sa & _ & Ga & _). pose proof (t_next m root T a oa Ea) as La.
  assert (Nn : live m (next m) = None) by (destruct (live m (next m)) as [x|] eqn:E; auto; apply (t_next m root T) in E; lia).
  assert (Na : a <> next m) by lia.
  unfold allocate, add_child, store, load. cbn [fst snd live next].
  repeat (first [rewrite upd_same|rewrite upd_other by lia|rewrite Ea]; cbn [bind live next ob_state ob_action ob_g ob_f ob_children]).
  eexists. split; [reflexivity|].
  match goal with |- tree ?x _ /\ _ => set (m2 := x) end.
  assert (L2 : forall b, live m2 b = if b =? next m then Some (Obj cs act (add (n_g n) c) (add (add (n_g n) c) (h cs)) (Some a) [])
    else if b =? a then Some (Obj (ob_state oa) (ob_action oa) (ob_g oa) (ob_f oa) (ob_parent oa) (ob_children oa ++ [next m])) else live m b).
  { intros b. cbn [m2 live]. unfold m_upd. destruct (b =? next m), (b =? a); reflexivity. }
  assert (N2 : next m2 = Datatypes.S (next m)) by reflexivity. clearbody m2.
  assert (X : ext m m2).
  { intros b ob Eb. pose proof (t_next m root T b ob Eb) as Lb. rewrite L2. rewrite (proj2 (Nat.eqb_neq b (next m))) by lia. destruct (Nat.eqb_spec b a) as [->|]; [|exists ob; repeat (split; auto)].
    assert (ob = oa) by congruence. subst. eexists. split; [reflexivity|]. repeat (split; auto). }
  assert (Rn : repr m2 (next m) (child_of add zero h n (cs, act, c))).
  { eapply repr_Child; [rewrite L2, Nat.eqb_refl; reflexivity|reflexivity..|]. now apply (repr_ext m). }
  split; [|split; [|split; [exact X|exact Rn]]].
  - constructor.
    + intros b ob. rewrite L2, N2. destruct (Nat.eqb_spec b (next m)) as [->|]; [lia|]. destruct (Nat.eqb_spec b a) as [->|]; [lia|].
      intros E. apply (t_next m root T) in E. lia.
    + destruct (t_root m root T) as (o & E & Ep). destruct (X root o E) as (o' & E' & _ & _ & _ & _ & Ep'). exists o'. split; [auto|congruence].
    + intros b ob E Nr. rewrite L2 in E. destruct (Nat.eqb_spec b (next m)) as [->|Nb].
      * injection E as <-. cbn [ob_parent]. exists a. rewrite L2, (proj2 (Nat.eqb_neq _ _) Na), Nat.eqb_refl. eexists. split; [reflexivity|]. split; [lia|]. split; [reflexivity|].
        cbn [ob_children]. apply in_or_app. right. now left.
      * assert (K : exists ob', live m b = Some ob' /\ ob_parent ob = ob_parent ob').
        { destruct (Nat.eqb_spec b a) as [->|]; [injection E as <-; exists oa; auto|exists ob; auto]. }
        destruct K as (ob' & Eb & Ep). destruct (t_parent m root T b ob' Eb Nr) as (p & op & Ep' & Lt & El & I).
        pose proof (t_next m root T p op El) as Lp. destruct (Nat.eq_dec p a) as [->|Npa].
        -- exists a. rewrite L2, (proj2 (Nat.eqb_neq _ _) Na), Nat.eqb_refl. eexists. split; [congruence|]. split; [lia|]. split; [reflexivity|].
           cbn [ob_children]. apply in_or_app. left. congruence.
        -- exists p, op. split; [congruence|]. split; [lia|]. rewrite L2. rewrite (proj2 (Nat.eqb_neq p (next m))) by lia. rewrite (proj2 (Nat.eqb_neq _ _) Npa). auto.
    + intros p op c' E I. rewrite L2 in E. destruct (Nat.eqb_spec p (next m)) as [->|Np]; [injection E as <-; destruct I|].
      assert (K : (p = a /\ c' = next m) \/ exists op', live m p = Some op' /\ In c' (ob_children op')).
      { destruct (Nat.eqb_spec p a) as [->|]; [|eauto]. injection E as <-. cbn [ob_children] in I. apply in_app_or in I as [I|[<-|[]]]; eauto. }
      destruct K as [(-> & ->)|(op' & E' & I')].
      * split; [lia|]. rewrite L2, Nat.eqb_refl. eexists. split; reflexivity.
      * destruct (t_child m root T p op' c' E' I') as (Lt & oc & Ec & Ep). split; [auto|]. destruct (X c' oc Ec) as (oc' & Ec' & _ & _ & _ & _ & Ep'). exists oc'. split; [auto|congruence].
    + intros p op E. rewrite L2 in E. destruct (Nat.eqb_spec p (next m)) as [->|Np]; [injection E as <-; constructor|].
      destruct (Nat.eqb_spec p a) as [->|]; [|now apply (t_nodup m root T p)]. injection E as <-. cbn [ob_children]. apply NoDup_app_ok; [now apply (t_nodup m root T a)|constructor; [intros []|constructor]|].
      intros x Ix [<-|[]]. destruct (t_child m root T a oa _ Ea Ix) as (_ & oc & Ec & _). congruence.
  - intros b ob E. rewrite L2 in E. destruct (Nat.eqb_spec b (next m)) as [->|Nb]; [exists (child_of add zero h n (cs, act, c)); split; [exact Rn|now constructor]|].
    assert (K : exists ob', live m b = Some ob') by (destruct (Nat.eqb_spec b a) as [->|]; eauto). destruct K as (ob' & Eb).
    destruct (AC b ob' Eb) as (nb & Rb & Hb). exists nb. split; [now apply (repr_ext m)|auto].
Qed.

Definition expl_rel (m : memory) (e : list (S * nat)) (e' : list node) : Prop :=
  Forall2 (fun x y => fst x = n_state y /\ repr m (snd x) y) e e'.

Lemma contains_rel m e e' s n : expl_rel m e e' -> s = n_state n -> ex_contains eqs s e = e_contains eqs n e'.
Proof.
  intros H ->. unfold ex_contains, e_contains, AStar_model.n_eq. induction H as [|x y e e' (E & _) H IH]; cbn; auto. rewrite IH, E. reflexivity.
Qed.

Lemma expl_ext m m' e e' : ext m m' -> expl_rel m e e' -> expl_rel m' e e'.
Proof. intros X. apply F2_impl. intros x y (E & R). split; auto. now apply (repr_ext m). Qed.

Lemma expand_one_sim m fr fr' a n e e' t : inv m fr fr' -> repr m a n -> chain n -> expl_rel m e e' -> trans succ (n_state n) (snd (fst t)) (snd t) (fst (fst t)) ->
  res_rel (fun x y => ext m (fst x) /\ inv (fst x) (snd x) y) (ms_expand_one a e (m, fr) t) (expand_one n e' fr' t).
Proof.
  intros I R Hn He Ht. destruct t as [[cs act] c]. cbn [fst snd] in Ht. unfold AStarMem_model.ms_expand_one, AStar_model.expand_one.
  destruct (repr_data m a n R) as (oa & Ea & Sa & _ & Ga & _). unfold load at 1. rewrite Ea. cbn [bind]. rewrite Ga.
  set (o := Obj cs act (add (n_g n) c) (add (add (n_g n) c) (h cs)) None []).
  set (child := Child cs act (add (n_g n) c) (add (add (n_g n) c) (h cs)) n).
  pose proof (i_tree _ _ _ I) as T. pose proof (i_chain _ _ _ I) as AC. pose proof (i_front _ _ _ I) as F.
  destruct (new_deleted m o T eq_refl) as (md & Ed & Ld & Nd). destruct (new_attached m o a n act c cs T AC R Hn Ht eq_refl) as (ma & Em & Ta & ACa & Xa & Ra).
  change (child_of add zero h n (cs, act, c)) with child in Ra.
  assert (Nn : live m (next m) = None) by (destruct (live m (next m)) as [x|] eqn:E; auto; apply (t_next m root T) in E; lia).
  assert (Lk : forall b, b <> next m -> live (fst (allocate m o)) b = live m b).
  { intros b Nb. cbn. unfold m_upd. now rewrite (proj2 (Nat.eqb_neq _ _) Nb). }
  assert (Lc : live (fst (allocate m o)) (snd (allocate m o)) = Some o) by (cbn; unfold m_upd; now rewrite Nat.eqb_refl).
  assert (Ec : snd (allocate m o) = next m) by reflexivity.
  destruct (allocate m o) as [m1 k]. cbn [fst snd] in *. subst k.
  set (Rel := fun x y => (x = next m /\ y = child) \/ repr m x y).
  assert (FF : faithful m1 Rel).
  { intros x y [(-> & ->)|Rx]; [exists o; auto|]. destruct (repr_faithful m x y Rx) as (ox & Ex & Hx). exists ox. split; [|auto]. rewrite Lk; auto. intros ->. congruence. }
  pose proof (cmp_faithful m1 Rel FF) as Hc. pose proof (eq_faithful m1 Rel FF) as Hq.
  assert (F1 : fr_rel _ _ Rel fr fr') by (eapply fr_rel_mono; [|exact F]; intros; now right).
  assert (Rc : Rel (next m) child) by now left.
  assert (Back : forall x y, Rel x y -> repr ma x y) by (intros x y [(-> & ->)|Rx]; [auto|now apply (repr_ext m)]).
  assert (Keep : res_rel (fun x y => ext m (fst x) /\ inv (fst x) (snd x) y) (bind (delete m1 (next m)) (fun m2 => Ok (m2, fr))) (Ok fr')).
  { rewrite Ed. cbn. split; [now apply same_ext|]. apply (inv_same m); auto. lia. }
  assert (Push : forall f f', fr_rel _ _ Rel f f' ->
    res_rel (fun x y => ext m (fst x) /\ inv (fst x) (snd x) y)
      (do (_, f2) <- looking m1 [next m] f (f_push (p_cmp m1) (p_eq m1) (next m) f); do m2 <- add_child m1 a (next m); Ok (m2, f2))
      (do (_, f2) <- f_push n_cmp n_eq child f'; Ok f2)).
  { intros f f' Ff. rewrite (looking_ok m1 Rel [next m] f f') by (auto; intros x [<-|[]]; eauto).
    eapply bind_rel; [apply (push_rel _ _ Rel _ n_cmp _ n_eq Hc Hq f f' (next m) child Ff Rc)|]. intros [u1 f2] [u2 f2'] Hf. cbn [snd] in Hf. rewrite Em. cbn.
    split; [auto|]. constructor; auto. now apply (fr_rel_mono Rel). }
  destruct graph.
  - rewrite (looking_ok m1 Rel [next m] fr fr') by (auto; intros x [<-|[]]; eauto). cbn [bind].
    pose proof (find_rel _ _ Rel _ n_eq Hq _ _ _ _ (proj2 F1) Rc) as Hf. unfold f_find.
    destruct (set_find (p_eq m1) (next m) (set fr)) as [fn|], (set_find n_eq child (set fr')) as [fn'|]; cbn in Hf; try contradiction.
    + unfold ms_shortcut, shortcut. destruct (FF fn fn' Hf) as (of & Ef & Sf & Cf). unfold load. rewrite Ef, Lc. cbn [bind]. rewrite Sf, Cf.
      change (ob_state o) with (n_state child). change (ob_f o) with (n_f child). destruct (guard (n_state fn') (n_state child)); [|exact Keep].
      destruct (ltb (n_f child) (n_f fn')); [|exact Keep]. cbn [andb].
      rewrite (looking_ok m1 Rel [fn] fr fr') by (auto; intros x [<-|[]]; eauto).
      eapply bind_rel; [apply (remove_rel _ _ Rel _ n_cmp _ n_eq Hc Hq fr fr' fn fn' F1 Hf)|]. intros [u1 f2] [u2 f2'] Hf2. cbn [snd] in Hf2. now apply Push.
    + unfold load. rewrite Lc. cbn [bind]. rewrite (contains_rel m e e' _ child He) by reflexivity. destruct (e_contains eqs child e'); [exact Keep|]. now apply Push.
  - now apply Push.
Qed.

Lemma expand_all_sim ts : forall m fr fr' a n e e', inv m fr fr' -> repr m a n -> chain n -> expl_rel m e e' ->
  (forall t, In t ts -> trans succ (n_state n) (snd (fst t)) (snd t) (fst (fst t))) ->
  res_rel (fun x y => ext m (fst x) /\ inv (fst x) (snd x) y) (ms_expand_all eqs ltb add h guard graph a e (m, fr) ts) (expand_all eqs ltb add zero h guard graph n e' fr' ts).
Proof.
  induction ts as [|t ts IH]; intros m fr fr' a n e e' I R Hn He Ht; cbn [ms_expand_all expand_all].
  - cbn. split; [apply ext_refl|auto].
  - eapply bind_rel; [apply (expand_one_sim m fr fr' a n e e' t I R Hn He); apply Ht; now left|]. intros [m1 f1] f1' (X & I1). cbn [fst snd] in *.
    pose proof (IH m1 f1 f1' a n e e' I1 (repr_ext m m1 n X a R) Hn (expl_ext m m1 e e' X He) (fun t Ht' => Ht t (or_intror Ht'))) as H.
    destruct (ms_expand_all _ _ _ _ _ _ _ _ _ _) as [[m2 f2]| | |], (expand_all _ _ _ _ _ _ _ _ _ _ _) as [f2'| | |]; cbn in *; auto.
    destruct H as (X2 & I2). split; [now apply (ext_trans m m1)|auto].
Qed.

Record sim (st : mstate) (st' : AStar_model.search S A C P) : Prop := {
  s_root : ms_root st = Some root;
  s_prop : ms_prop st = st_prop st';
  s_inv : inv (ms_mem st) (ms_front st) (st_front st');
  s_expl : expl_rel (ms_mem st) (ms_expl st) (st_expl st');
  s_sol : ms_sol st = None
}.

Lemma insert_rel m e e' a n o : expl_rel m e e' -> live m a = Some o -> ob_state o = n_state n -> repr m a n -> expl_rel m (ex_insert eqs (ob_state o) a e) (e_insert eqs n e').
Proof.
  intros H E Es R. unfold ex_insert, e_insert. rewrite (contains_rel m e e' _ n H Es). destruct (e_contains eqs n e'); auto. constructor; auto.
Qed.

Lemma expand_sim st st' a n : sim st st' -> repr (ms_mem st) a n -> chain n ->
  res_rel sim (ms_expand eqs ltb add h succ guard graph a st) (expand eqs ltb add zero h succ guard graph n st').
Proof.
  intros [Hr Hp Hi He Hs] R Hn. destruct (repr_data _ a n R) as (o & E & Es & _). unfold ms_expand, expand, load. rewrite E. cbn [bind]. rewrite Es, Hp.
  destruct (succ (st_prop st') (n_state n)) as [ts p] eqn:Q.
  pose proof (insert_rel _ _ _ a n o He E Es R) as He'. rewrite Es in He'.
  eapply bind_rel; [apply (expand_all_sim ts _ _ _ a n _ _ Hi R Hn He')|].
  - intros t It. exists (st_prop st'). rewrite Q. cbn [fst]. now destruct t as [[? ?] ?].
  - intros [m1 f1] f1' (X & I1). cbn in *. constructor; cbn; auto. now apply (expl_ext (ms_mem st)).
Qed.

(** The end of a search. *)
Record ended (found : bool) (st : mstate) (sol : option node) (st' : AStar_model.search S A C P) : Prop := {
  e_root : ms_root st = Some root;
  e_prop : ms_prop st = st_prop st';
  e_inv : inv (ms_mem st) (ms_front st) (st_front st');
  e_expl : expl_rel (ms_mem st) (ms_expl st) (st_expl st');
  e_sol : match sol with
          | Some n => found = true /\ exists a, ms_sol st = Some a /\ repr (ms_mem st) a n
          | None => found = false /\ ms_sol st = None
          end
}.

Lemma loop_sim fuel : forall st st', sim st st' ->
  res_rel (fun x y => ended (fst x) (snd x) (fst y) (snd y)) (ms_loop eqs ltb add h succ issol guard graph fuel st) (search_loop eqs ltb add zero h succ issol guard graph fuel st').
Proof.
  induction fuel as [|k IH]; intros st st' M; cbn [ms_loop search_loop]; [exact I|]. pose proof M as [Hr Hp Hi He Hs].
  rewrite (is_empty_rel _ _ _ _ _ (i_front _ _ _ Hi)). destruct (f_is_empty (st_front st')).
  - cbn. constructor; auto.
  - rewrite (looking_ok (ms_mem st) (repr (ms_mem st)) [] (ms_front st) (st_front st')) by (try apply repr_faithful; try apply (i_front _ _ _ Hi); intros x []).
    eapply bind_rel; [apply (pop_rel _ _ (repr (ms_mem st)) _ n_eq (eq_faithful _ _ (repr_faithful _)) _ _ (i_front _ _ _ Hi))|].
    intros [a f1] [n f1'] (R & F1). cbn [fst snd] in *. destruct (repr_data _ a n R) as (o & E & Es & _). unfold load. rewrite E. cbn [bind]. rewrite Es.
    assert (Hi1 : inv (ms_mem st) f1 f1') by (destruct Hi; constructor; auto). destruct (issol (n_state n)).
    + cbn. constructor; cbn; auto. split; [auto|]. exists a. auto.
    + destruct (i_chain _ _ _ Hi a o E) as (n' & R' & Hn). assert (n' = n) as -> .
      { clear - R R'. revert a R R'. revert n'. induction n as [s|s act g f p IH]; intros [s'|s' act' g' f' p'] a; cbn [repr]; intros (N & H) (N' & H'); destruct (live (ms_mem st) a) as [o|]; try congruence;
          destruct (H o eq_refl) as (? & ? & ? & ? & X), (H' o eq_refl) as (? & ? & ? & ? & X'); try (destruct X as (? & ? & _); congruence); try (destruct X' as (? & ? & _); congruence); try congruence.
        destruct X as (pa & Ep & Rp), X' as (pa' & Ep' & Rp'). assert (pa' = pa) by congruence. subst pa'. rewrite (IH p' pa Rp Rp'). congruence. }
      eapply bind_rel; [apply (expand_sim (MState (ms_mem st) f1 (ms_expl st) (ms_root st) (ms_sol st) (ms_prop st)) (Search f1' (st_expl st') (st_prop st') (st_queried st')) a n); [|exact R|exact Hn]; constructor; cbn; auto|].
      intros st2 st2' M2. now apply IH.
Qed.
End Search.

(** ** What the caller sees *)
Lemma repr_parent m a n : repr m a n -> exists o, live m a = Some o /\
  match n_parent n with None => ob_parent o = None | Some p => exists pa, ob_parent o = Some pa /\ repr m pa p end.
Proof.
  destruct n as [s|s act g f p]; cbn; intros (N & H); destruct (live m a) as [o|]; try congruence; exists o; destruct (H o eq_refl) as (_ & _ & _ & _ & X); auto.
Qed.

Lemma depth_repr m root : tree m root -> forall fuel a n, Datatypes.S a < fuel -> repr m a n -> depth_from fuel m (Some a) = Ok (Datatypes.S (n_depth n)).
Proof.
  intros T. induction fuel as [|k IH]; intros a n L R; [lia|]. cbn [depth_from]. destruct (repr_parent m a n R) as (o & E & X). unfold load. rewrite E. cbn [bind].
  destruct n as [s|s act g f p]; cbn [n_parent] in X.
  - rewrite X. destruct k; [lia|reflexivity].
  - destruct X as (pa & Ep & Rp). destruct (up_parent m root T a o pa E Ep) as (Lt & _). rewrite Ep, (IH pa p) by (auto; lia). reflexivity.
Qed.

Lemma depth_ok m root a n : tree m root -> repr m a n -> depth m a = Ok (n_depth n).
Proof.
  intros T R. unfold depth, load. destruct (repr_parent m a n R) as (o & E & X). rewrite E. cbn [bind]. destruct n as [s|s act g f p]; cbn [n_parent n_depth] in *.
  - now rewrite X.
  - destruct X as (pa & Ep & Rp). rewrite Ep. apply (depth_repr m root T); auto. destruct (up_parent m root T a o pa E Ep) as (Lt & _). pose proof (t_next m root T a o E). lia.
Qed.

Lemma fill_ok {B} (get : obj -> B) (get' : node -> B) m : (forall a n o, repr m a n -> live m a = Some o -> get o = get' n) ->
  forall k cur cur' acc, match cur, cur' with Some a, Some n => repr m a n | None, None => True | _, _ => False end ->
  fill get k m cur acc = fill_back get' k cur' acc.
Proof.
  intros G. induction k as [|k IH]; intros cur cur' acc Hc; cbn [fill fill_back]; auto. destruct cur as [a|], cur' as [n|]; try contradiction; auto.
  destruct (repr_parent m a n Hc) as (o & E & X). unfold load. rewrite E. cbn [bind]. rewrite (G a n o Hc E). apply IH. destruct (n_parent n) as [p|].
  - destruct X as (pa & Ep & Rp). now rewrite Ep.
  - now rewrite X.
Qed.

Section Answers.
Variables (h : S -> C) (succ : P -> S -> list (S * A * C) * P) (init : S) (root : nat).
Notation ended := (ended h succ init root).

Lemma path_ok found st sol st' : ended found st sol st' -> ms_path st = get_path sol.
Proof.
  intros [Hr Hp Hi He Hs]. unfold ms_path, get_path. destruct sol as [n|].
  - destruct Hs as (_ & a & -> & R). rewrite (depth_ok _ _ a n (i_tree _ _ _ _ _ _ _ Hi) R). cbn [bind]. apply fill_ok; [|exact R].
    intros b nb o Rb E. destruct (repr_data _ b nb Rb) as (o' & E' & Es & _). congruence.
  - destruct Hs as (_ & ->). reflexivity.
Qed.

Lemma actions_ok found st sol st' : ended found st sol st' -> ms_actions st = get_actions dflt sol.
Proof.
  intros [Hr Hp Hi He Hs]. unfold ms_actions, get_actions. destruct sol as [n|].
  - destruct Hs as (_ & a & -> & R). rewrite (depth_ok _ _ a n (i_tree _ _ _ _ _ _ _ Hi) R). cbn [bind]. apply fill_ok; [|exact R].
    intros b nb o Rb E. destruct (repr_data _ b nb Rb) as (o' & E' & _ & Ea & _). congruence.
  - destruct Hs as (_ & ->). reflexivity.
Qed.

Lemma cost_ok found st sol st' : ended found st sol st' -> ms_cost st = Ok (get_optimal_cost zero sol).
Proof.
  intros [Hr Hp Hi He Hs]. unfold ms_cost, get_optimal_cost. destruct sol as [n|].
  - destruct Hs as (_ & a & -> & R). destruct (repr_data _ a n R) as (o' & E' & _ & _ & Eg & _). unfold load. rewrite E'. cbn. now rewrite Eg.
  - destruct Hs as (_ & ->). reflexivity.
Qed.
End Answers.

(** ** Several searches *)
Definition good (st : mstate) : Prop :=
  match ms_root st with None => forall a, live (ms_mem st) a = None | Some r => tree (ms_mem st) r end.

Lemma clear_ok st : good st ->
  exists m, match ms_root st with None => Ok (ms_mem st) | Some r => delete (ms_mem st) r end = Ok m /\ forall a, live m a = None.
Proof.
  unfold good. destruct (ms_root st) as [r|]; intros G; [|eauto]. destruct (delete_tree _ _ G) as (m2 & E & _ & L). eauto.
Qed.

Lemma init_sim h succ init st p : good st -> ms_prop st = p ->
  exists root, res_rel (sim h succ init root) (ms_init eqs ltb zero dflt init st) (init_search eqs ltb zero init p).
Proof.
  intros G Ep. destruct (clear_ok st G) as (m & Em & Lm). exists (next m). unfold ms_init, init_search.
  rewrite Em. cbn [bind]. unfold allocate. set (o := Obj init dflt zero zero None []). set (m1 := Memory (m_upd (live m) (next m) (Some o)) (Datatypes.S (next m))).
  assert (L1 : forall b, live m1 b = if b =? next m then Some o else None).
  { intros b. cbn [m1 live]. unfold m_upd. destruct (b =? next m); auto. }
  assert (R : repr m1 (next m) (Root init)).
  { cbn [repr]. rewrite L1, Nat.eqb_refl. split; [congruence|]. intros o' Q. injection Q as <-. repeat split; auto. }
  assert (F0 : fr_rel _ _ (repr m1) f_empty f_empty) by (split; constructor).
  rewrite (looking_ok m1 (repr m1) [next m] f_empty f_empty) by (auto using repr_faithful; intros x [<-|[]]; eauto).
  eapply bind_rel; [apply (push_rel _ _ (repr m1) _ n_cmp _ n_eq (cmp_faithful _ _ (repr_faithful m1)) (eq_faithful _ _ (repr_faithful m1)) f_empty f_empty (next m) (Root init) F0 R)|].
  intros [u f] [u' f'] F. cbn [snd] in F. unfold load. rewrite L1, Nat.eqb_refl. cbn. constructor; cbn; auto; [|constructor; auto]. constructor; auto.
  - constructor.
    + intros a oa. rewrite L1. destruct (Nat.eqb_spec a (next m)); [|discriminate]. subst. cbn. lia.
    + exists o. rewrite L1, Nat.eqb_refl. auto.
    + intros a oa E N. rewrite L1 in E. rewrite (proj2 (Nat.eqb_neq _ _) N) in E. discriminate.
    + intros q oq c E I. rewrite L1 in E. destruct (Nat.eqb_spec q (next m)); [|discriminate]. injection E as <-. destruct I.
    + intros q oq E. rewrite L1 in E. destruct (Nat.eqb_spec q (next m)); [|discriminate]. injection E as <-. constructor.
  - intros a oa E. rewrite L1 in E. destruct (Nat.eqb_spec a (next m)) as [->|]; [|discriminate]. exists (Root init). split; [auto|constructor].
Qed.

Section Runs.
Context (guard : S -> S -> bool) (graph : bool).
Notation ms_call := (ms_call eqs ltb add zero dflt guard graph).
Notation plain_call := (plain_call eqs ltb add zero dflt guard graph).
Notation request := (@AStarMem_spec.request S A C P).

(** The state after a search. *)
Definition finished (q : request) (x : @answer S A C) (st : mstate) : Prop :=
  exists root sol st', ended (rq_h q) (rq_succ q) (rq_init q) root (an_found x) st sol st' /\ get_actions dflt sol = Ok (an_actions x).

Lemma finished_good q x st : finished q x st -> good st.
Proof. intros (root & sol & st' & [Hr Hp Hi _ _] & _). unfold good. rewrite Hr. exact (i_tree _ _ _ _ _ _ _ Hi). Qed.

Lemma call_sim q st p : good st -> ms_prop st = p ->
  res_rel (fun x y => fst x = fst y /\ ms_prop (snd x) = snd y /\ finished q (fst x) (snd x)) (ms_call q st) (plain_call q p).
Proof.
  intros G Ep. unfold AStarMem_spec.ms_call, AStarMem_spec.plain_call, ms_search, search_path. destruct (init_sim (rq_h q) (rq_succ q) (rq_init q) st p G Ep) as (root & M).
  assert (X : res_rel (fun x y => ended (rq_h q) (rq_succ q) (rq_init q) root (fst x) (snd x) (fst y) (snd y))
    (do st1 <- ms_init eqs ltb zero dflt (rq_init q) st; ms_loop eqs ltb add (rq_h q) (rq_succ q) (rq_sol q) guard graph (rq_fuel q) st1)
    (do st0 <- init_search eqs ltb zero (rq_init q) p; search_loop eqs ltb add zero (rq_h q) (rq_succ q) (rq_sol q) guard graph (rq_fuel q) st0)).
  { eapply bind_rel; [exact M|]. intros st1 st1' M1. now apply loop_sim. }
  eapply bind_rel; [exact X|]. intros [found st1] [sol st1'] H. cbn [fst snd] in H. unfold ms_answer.
  rewrite (path_ok _ _ _ _ _ _ _ _ H), (actions_ok _ _ _ _ _ _ _ _ H), (cost_ok _ _ _ _ _ _ _ _ H).
  destruct (get_path sol) as [path| | |]; cbn; auto. destruct (get_actions dflt sol) as [acts| | |] eqn:Ea; cbn; auto.
  split; [|split; [exact (e_prop _ _ _ _ _ _ _ _ H)|exists root, sol, st1'; auto]].
  f_equal. pose proof (e_sol _ _ _ _ _ _ _ _ H) as Q. destruct sol; destruct Q; auto.
Qed.

Lemma run_sim qs : forall st p, good st -> ms_prop st = p ->
  res_rel (fun x y => fst x = y /\ good (snd x)) (ms_run eqs ltb add zero dflt guard graph qs st) (plain_run eqs ltb add zero dflt guard graph qs p).
Proof.
  induction qs as [|q qs IH]; intros st p G Ep; cbn [ms_run plain_run]; [cbn; auto|].
  eapply bind_rel; [apply (call_sim q st p G Ep)|]. intros [x st1] [y p1] (E1 & E2 & Fi). cbn [fst snd] in *. subst y p1.
  eapply bind_rel; [apply (IH st1 _ (finished_good _ _ _ Fi) eq_refl)|]. intros [xs st2] ys (E3 & G2). cbn [fst snd] in *. cbn. subst. auto.
Qed.

Lemma run_last qs q st0 xs st p : good st0 -> ms_prop st0 = p -> ms_run eqs ltb add zero dflt guard graph (qs ++ [q]) st0 = Ok (xs, st) ->
  exists x, last xs x = x /\ finished q x st /\ xs <> [] /\ forall d, last xs d = x.
Proof.
  revert st0 xs p. induction qs as [|q1 qs IH]; intros st0 xs p G Ep E; cbn [app ms_run] in E.
  - pose proof (call_sim q st0 p G Ep) as K. destruct (ms_call q st0) as [[x st1]| | |]; try discriminate. cbn [bind] in E. injection E as <- <-.
    destruct (plain_call q p) as [[y p1]| | |]; cbn in K; try contradiction. destruct K as (_ & _ & Fi). exists x. repeat split; auto. discriminate.
  - pose proof (call_sim q1 st0 p G Ep) as K. destruct (ms_call q1 st0) as [[x st1]| | |]; try discriminate. cbn [bind] in E.
    destruct (plain_call q1 p) as [[y p1]| | |]; cbn in K; try contradiction. destruct K as (_ & E2 & Fi).
    destruct (ms_run _ _ _ _ _ _ _ (qs ++ [q]) st1) as [[xs2 st2]| | |] eqn:E3; try discriminate. cbn [bind] in E. injection E as <- <-.
    destruct (IH st1 xs2 p1 (finished_good _ _ _ Fi) E2 E3) as (x2 & H1 & H2 & H3 & H4). exists x2. split; [|split; [auto|split; [discriminate|]]].
    + destruct xs2; [congruence|auto].
    + intros d. destruct xs2; [congruence|]. exact (H4 d).
Qed.

(** ** After a search *)
Lemma finished_pointers q x st : finished q x st ->
  (forall a, In a (vec (ms_front st)) -> live (ms_mem st) a <> None) /\ (forall a, In a (set (ms_front st)) -> live (ms_mem st) a <> None) /\
  (forall s a, In (s, a) (ms_expl st) -> exists o, live (ms_mem st) a = Some o /\ ob_state o = s) /\
  (forall a, ms_sol st = Some a -> live (ms_mem st) a <> None) /\
  exists r, ms_root st = Some r /\ forall a, live (ms_mem st) a <> None <-> owned (ms_mem st) r a.
Proof.
  intros (root & sol & st' & [Hr Hp Hi He Hs] & _). pose proof (i_tree _ _ _ _ _ _ _ Hi) as T.
  assert (L : forall a n, repr (ms_mem st) a n -> live (ms_mem st) a <> None) by (intros a n R; destruct (repr_data _ a n R) as (o & E & _); congruence).
  assert (G : forall v (v' : list node), Forall2 (repr (ms_mem st)) v v' -> forall a, In a v -> live (ms_mem st) a <> None).
  { induction 1 as [|u u' v v' H1 H2 IH]; intros x' []; subst; eauto. }
  destruct (i_front _ _ _ _ _ _ _ Hi) as [Fv Fs]. split; [eauto|]. split; [eauto|]. split; [|split].
  - intros s a I. clear - He I. induction He as [|[s' a'] n e e' (E & R) H IH]; [destruct I|]. destruct I as [Q|I]; [|auto]. injection Q as -> ->. cbn in *.
    destruct (repr_data _ a n R) as (o & Eo & Es & _). exists o. split; congruence.
  - intros a E. destruct sol as [n|]; [|destruct Hs; congruence]. destruct Hs as (_ & a' & E' & R). assert (a' = a) by congruence. subst. eauto.
  - exists root. split; auto. intros a. destruct (t_root _ _ T) as (ro & Er & _). rewrite <- (desc_owned _ _ T root a) by eauto. split.
    + destruct (live (ms_mem st) a) as [o|] eqn:E; [|congruence]. intros _. eapply root_desc; eauto.
    + intros D. destruct (desc_live _ root a D) as (o & E); [eauto|congruence].
Qed.

Lemma good_destroy st : good st -> exists m, ms_destroy st = Ok m /\ forall a, live m a = None.
Proof. apply clear_ok. Qed.

(** *** The set of explored actions *)
Lemma actions_of_ok (m : memory) l : (forall a, In a l -> live m a <> None) -> exists acts, actions_of m l = Ok acts /\
  Forall2 (fun a act => exists o, live m a = Some o /\ ob_action o = act) l acts.
Proof.
  induction l as [|a l IH]; intros H; cbn [actions_of]; [exists []; auto|]. pose proof (H a (or_introl eq_refl)) as N. unfold load. destruct (live m a) as [o|] eqn:E; [|congruence].
  destruct (IH (fun b I => H b (or_intror I))) as (acts & -> & F). exists (ob_action o :: acts). split; [reflexivity|]. constructor; eauto.
Qed.

Lemma explored_ok q x st : finished q x st -> exists r l acts, ms_root st = Some r /\ ms_explored st = Ok acts /\ NoDup l /\
  (forall a, In a l <-> live (ms_mem st) a <> None /\ a <> r) /\
  Forall2 (fun a act => exists o, live (ms_mem st) a = Some o /\ ob_action o = act) l acts.
Proof.
  intros (root & sol & st' & [Hr Hp Hi He Hs] & _). pose proof (i_tree _ _ _ _ _ _ _ Hi) as T. destruct (t_root _ _ T) as (ro & Er & _).
  destruct (traverse_spec _ _ T (Datatypes.S (next (ms_mem st))) root) as (l & E & ND & D); [lia|eauto|].
  assert (Hl : forall a, In a l <-> live (ms_mem st) a <> None /\ a <> root).
  { intros a. inversion ND as [|? ? Nr ND']; subst. split.
    - intros I. split; [|intros ->; auto]. destruct (desc_live _ root a (proj1 (D a) (or_intror I))) as (o & Eo); [eauto|congruence].
    - intros (La & Na). destruct (live (ms_mem st) a) as [o|] eqn:Eo; [|congruence]. destruct (proj2 (D a) (root_desc _ _ T a o Eo)); [congruence|auto]. }
  destruct (actions_of_ok (ms_mem st) l (fun a I => proj1 (proj1 (Hl a) I))) as (acts & Ea & F).
  exists root, l, acts. split; [auto|]. unfold ms_explored. rewrite Hr, E. cbn [bind tl]. split; [auto|]. split; [now inversion ND|]. split; auto.
Qed.

(** An object that is not the root was made by a transition that the propagator offered. *)
Lemma object_offered q x st a o : finished q x st -> live (ms_mem st) a = Some o -> ms_root st <> Some a ->
  exists s c, reachable (rq_succ q) (rq_init q) s /\ trans (rq_succ q) s (ob_action o) c (ob_state o).
Proof.
  intros (root & sol & st' & [Hr Hp Hi He Hs] & _) E N. destruct (i_chain _ _ _ _ _ _ _ Hi a o E) as (n & R & Hn).
  destruct (repr_data _ a n R) as (o' & E' & Es & Ea & _). assert (o' = o) by congruence. subst o'. destruct Hn as [|n act c t Hn Ht].
  - destruct (repr_parent _ a _ R) as (o' & E'' & X). cbn in X. destruct (Nat.eq_dec a root) as [->|Na]; [congruence|].
    destruct (t_parent _ _ (i_tree _ _ _ _ _ _ _ Hi) a o E Na) as (p & op & Ep & _). congruence.
  - cbn in Es, Ea. exists (n_state n), c. split; [eapply chain_reachable; eauto|]. now rewrite Es, Ea.
Qed.

Lemma explored_offered q x st acts : finished q x st -> ms_explored st = Ok acts ->
  Forall (fun act => exists s c t, reachable (rq_succ q) (rq_init q) s /\ trans (rq_succ q) s act c t) acts.
Proof.
  intros Fi E. destruct (explored_ok q x st Fi) as (r & l & acts' & Er & E' & _ & Hl & F). assert (acts' = acts) by congruence. subst acts'.
  assert (K : forall a, In a l -> live (ms_mem st) a <> None /\ a <> r) by (intros a; apply Hl). clear Hl. induction F as [|a act l acts (o & Eo & Ea) F IH]; constructor.
  - destruct (object_offered q x st a o Fi Eo) as (s & c & H1 & H2); [rewrite Er; destruct (K a (or_introl eq_refl)); congruence|]. subst act. eauto.
  - clear IH. assert (K' : forall b, In b l -> live (ms_mem st) b <> None /\ b <> r) by (intros b Ib; apply K; now right).
    clear K E E'. induction F as [|b act' l acts (o' & Eo' & Ea') F IH]; constructor.
    + destruct (object_offered q x st b o' Fi Eo') as (s & c & H1 & H2); [rewrite Er; destruct (K' b (or_introl eq_refl)); congruence|]. subst act'. eauto.
    + apply IH. intros b' Ib. apply K'. now right.
Qed.

Lemma F2_In_l {X Y} (R : X -> Y -> Prop) l l' x : Forall2 R l l' -> In x l -> exists y, In y l' /\ R x y.
Proof. induction 1 as [|a b l l' H1 H2 IH]; intros []; subst; [exists b; split; [now left|auto]|]. destruct IH as (y & I & Hy); auto. exists y. split; [now right|auto]. Qed.

Lemma object_explored q x st acts a o : finished q x st -> ms_explored st = Ok acts -> live (ms_mem st) a = Some o -> ms_root st <> Some a -> In (ob_action o) acts.
Proof.
  intros Fi E Eo N. destruct (explored_ok q x st Fi) as (r & l & acts' & Er & E' & _ & Hl & F). assert (acts' = acts) by congruence. subst acts'.
  destruct (F2_In_l _ _ _ a F) as (act & I & o' & Eo' & Ea); [apply Hl; split; congruence|]. assert (o' = o) by congruence. now subst.
Qed.

(** The actions of the solution are among the explored ones. *)
Lemma chain_explored q x st acts : finished q x st -> ms_explored st = Ok acts -> forall n a l acc, repr (ms_mem st) a n ->
  fill_back (n_action dflt) (n_depth n) (Some n) acc = Ok l -> forall act, In act l -> In act acts \/ In act acc.
Proof.
  intros Fi E. induction n as [s|s act0 g f p IH]; intros a l acc R H act I.
  - cbn in H. injection H as <-. auto.
  - cbn [n_depth] in H. change (fill_back (n_action dflt) (n_depth p) (Some p) (act0 :: acc) = Ok l) in H.
    destruct (repr_parent _ a _ R) as (o & Eo & X). cbn in X. destruct X as (pa & Ep & Rp). destruct (IH pa l _ Rp H act I) as [J|[<-|J]]; auto. left.
    destruct (repr_data _ a _ R) as (o' & E' & _ & Ea & _). cbn in Ea. assert (o' = o) by congruence. subst o' act0. apply (object_explored q x st acts a o Fi E Eo).
    intros Q. destruct Fi as (root & sol & st' & [Hr Hp Hi He Hs] & _). assert (root = a) by congruence. subst root. destruct (t_root _ _ (i_tree _ _ _ _ _ _ _ Hi)) as (ro & Er & Pr). congruence.
Qed.

Lemma solution_explored q x st acts : finished q x st -> ms_explored st = Ok acts -> incl (an_actions x) acts.
Proof.
  intros Fi E. pose proof Fi as (root & sol & st' & [Hr Hp Hi He Hs] & Ha). unfold get_actions in Ha. destruct sol as [n|].
  - destruct Hs as (_ & a & _ & R). intros act I. destruct (chain_explored q x st acts Fi E n a _ _ R Ha act I) as [|[]]; auto.
  - injection Ha as Q. rewrite <- Q. intros ? [].
Qed.

(** The states that were expanded. *)
Lemma expanded_explored q x st acts s a : finished q x st -> ms_explored st = Ok acts -> In (s, a) (ms_expl st) ->
  s = rq_init q \/ exists act s0 c, In act acts /\ reachable (rq_succ q) (rq_init q) s0 /\ trans (rq_succ q) s0 act c s.
Proof.
  intros Fi E I. destruct (finished_pointers q x st Fi) as (_ & _ & K & _). destruct (K s a I) as (o & Eo & Es). subst s.
  destruct (explored_ok q x st Fi) as (r & _ & _ & Er & _). destruct (Nat.eq_dec a r) as [->|N].
  - left. destruct Fi as (root & sol & st' & [Hr Hp Hi He Hs] & _). destruct (i_chain _ _ _ _ _ _ _ Hi r o Eo) as (n & R & Hn).
    destruct (repr_data _ r n R) as (o' & E' & Es & _). assert (o' = o) by congruence. subst o'. rewrite Es. destruct Hn as [|n act c t Hn Ht]; [reflexivity|].
    exfalso. destruct (repr_parent _ r _ R) as (o' & E'' & X). cbn in X. destruct X as (pa & Ep & _). assert (root = r) by congruence. subst root.
    destruct (t_root _ _ (i_tree _ _ _ _ _ _ _ Hi)) as (ro & Er' & Pr). congruence.
  - right. destruct (object_offered q x st a o Fi Eo) as (s0 & c & H1 & H2); [congruence|]. exists (ob_action o), s0, c. split; [|auto].
    apply (object_explored q x st acts a o Fi E Eo). congruence.
Qed.

(** Each explored action goes on from the start or from the end of an explored one. *)
Lemma object_linked q x st acts a o : finished q x st -> ms_explored st = Ok acts -> live (ms_mem st) a = Some o -> ms_root st <> Some a ->
  exists s c, trans (rq_succ q) s (ob_action o) c (ob_state o) /\
    (s = rq_init q \/ exists act s0 c0, In act acts /\ trans (rq_succ q) s0 act c0 s).
Proof.
  intros Fi Ee E N. pose proof Fi as (root & sol & st' & [Hr Hp Hi He Hs] & _). destruct (i_chain _ _ _ _ _ _ _ Hi a o E) as (n & R & Hn).
  destruct (repr_data _ a n R) as (o' & E' & Es & Ea & _). assert (o' = o) by congruence. subst o'. destruct Hn as [|n act c t Hn Ht].
  - destruct (repr_parent _ a _ R) as (o' & E'' & X). cbn in X. destruct (Nat.eq_dec a root) as [->|Na]; [congruence|].
    destruct (t_parent _ _ (i_tree _ _ _ _ _ _ _ Hi) a o E Na) as (p & op & Ep & _). congruence.
  - cbn in Es, Ea. exists (n_state n), c. split; [now rewrite Es, Ea|]. destruct (repr_parent _ a _ R) as (o' & E'' & X). cbn in X. destruct X as (pa & Ep & Rp).
    destruct (repr_data _ pa n Rp) as (op & Eop & Esp & Eap & _). destruct Hn as [|n0 act0 c0 t0 Hn0 Ht0]; [now left|]. right.
    exists act0, (n_state n0), c0. split; [|exact Ht0]. cbn in Eap. rewrite <- Eap. apply (object_explored q x st acts pa op Fi Ee Eop).
    intros Q. assert (root = pa) by congruence. subst root. destruct (t_root _ _ (i_tree _ _ _ _ _ _ _ Hi)) as (ro & Er' & Pr).
    destruct (repr_parent _ pa _ Rp) as (o2 & E2 & X2). cbn in X2. destruct X2 as (? & ? & _). congruence.
Qed.

Lemma F2_In_r {X Y} (R : X -> Y -> Prop) l l' y : Forall2 R l l' -> In y l' -> exists x, In x l /\ R x y.
Proof. induction 1 as [|a b l l' H1 H2 IH]; intros []; subst; [exists a; split; [now left|auto]|]. destruct IH as (x & I & Hx); auto. exists x. split; [now right|auto]. Qed.

Lemma explored_linked q x st acts : finished q x st -> ms_explored st = Ok acts -> forall act, In act acts ->
  exists s c t, trans (rq_succ q) s act c t /\ (s = rq_init q \/ exists act0 s0 c0, In act0 acts /\ trans (rq_succ q) s0 act0 c0 s).
Proof.
  intros Fi E act I. destruct (explored_ok q x st Fi) as (r & l & acts' & Er & E' & _ & Hl & F). assert (acts' = acts) by congruence. subst acts'.
  destruct (F2_In_r _ _ _ act F I) as (a & Ia & o & Eo & Ea). destruct (object_linked q x st acts a o Fi E Eo) as (s & c & H1 & H2); [destruct (proj1 (Hl a) Ia); congruence|].
  subst act. eauto.
Qed.
End Runs.
End Mem.

(** ** Runs *)
Section Facts.
Context {S A C P : Type}.
Context (eqs : S -> S -> bool) (ltb : C -> C -> bool) (add : C -> C -> C) (zero : C) (dflt : A) (guard : S -> S -> bool) (graph : bool).
Notation ms_run := (ms_run (P := P) eqs ltb add zero dflt guard graph).
Notation plain_run := (plain_run (P := P) eqs ltb add zero dflt guard graph).

Lemma new_good p : good (ms_new (S := S) (A := A) (C := C) (P := P) p).
Proof. cbn. auto. Qed.

Lemma run_same qs p : rmap fst (ms_run qs (ms_new p)) = plain_run qs p.
Proof.
  pose proof (run_sim eqs ltb add zero dflt guard graph qs (ms_new p) p (new_good p) eq_refl) as H. destruct (ms_run qs (ms_new p)) as [[xs st]| | |], (plain_run qs p); cbn in *; try contradiction; auto.
  destruct H as (-> & _). reflexivity.
Qed.

Lemma plain_no_ub qs : Frontier_spec.equivalence S eqs -> Frontier_spec.strict_weak_order C ltb -> forall p,
  match plain_run qs p with Ok _ => True | NoFuel => True | UB => False | Throw => False end.
Proof.
  intros He Hl. induction qs as [|q qs IH]; intros p; cbn [AStarMem_spec.plain_run]; auto. unfold plain_call.
  pose proof (search_no_ub eqs ltb add zero (rq_h q) (rq_succ q) (rq_sol q) guard graph He Hl (rq_fuel q) (rq_init q) p) as H.
  destruct (search_path _ _ _ _ _ _ _ _ _ _ _ _) as [[sol st]| | |]; auto. cbn [bind].
  assert (Q : exists l, get_path sol = Ok l) by (destruct sol as [n|]; cbn [get_path]; [destruct (fill_back_depth (@n_state S A C) n []) as (l & r & _ & E); rewrite E|]; eauto).
  assert (Q' : exists l, get_actions dflt sol = Ok l) by (destruct sol as [n|]; cbn [get_actions]; [destruct (fill_back_depth (n_action dflt) n []) as (l & r & E & _); rewrite E|]; eauto).
  destruct Q as (l & ->), Q' as (l' & ->). cbn [bind]. specialize (IH (st_prop st)). destruct (plain_run qs (st_prop st)); auto.
Qed.

Lemma run_no_ub qs p : Frontier_spec.equivalence S eqs -> Frontier_spec.strict_weak_order C ltb ->
  match ms_run qs (ms_new p) with Ok _ => True | NoFuel => True | UB => False | Throw => False end.
Proof. intros He Hl. pose proof (plain_no_ub qs He Hl p) as H. rewrite <- run_same in H. destruct (ms_run qs (ms_new p)); auto. Qed.

Lemma run_finished qs q p xs st : ms_run (qs ++ [q]) (ms_new p) = Ok (xs, st) -> exists ys x, xs = ys ++ [x] /\ finished add zero dflt q x st.
Proof.
  intros E. destruct (run_last eqs ltb add zero dflt guard graph qs q (ms_new p) xs st p (new_good p) eq_refl E) as (x & _ & Fi & N & L).
  exists (removelast xs), x. split; [|exact Fi]. rewrite <- (L x). now apply app_removelast_last.
Qed.

Lemma run_good qs p xs st : ms_run qs (ms_new p) = Ok (xs, st) -> good st.
Proof.
  intros E. pose proof (run_sim eqs ltb add zero dflt guard graph qs (ms_new p) p (new_good p) eq_refl) as H. rewrite E in H. destruct (plain_run qs p); cbn in H; try contradiction. apply H.
Qed.
End Facts.
