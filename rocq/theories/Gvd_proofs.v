(** Invariants of the distance maps. *)
From Verif Require Import Base Grid_model Grid_spec Grid_proofs Gvd_model Gvd_spec.
From Coq Require Import ZifyBool ZifyNat ZifyN.
Open Scope Z_scope.

Lemma cell_eq_dec (a b : cell) : {a = b} + {a <> b}.
Proof. destruct (cell_eqb a b) eqn:E; [left; now apply cell_eqb_eq|right; intros H; apply cell_eqb_eq in H; congruence]. Qed.

Definition count (q : list cell) (c : cell) : nat := count_occ cell_eq_dec q c.

Lemma count_In q c : In c q <-> (1 <= count q c)%nat.
Proof. unfold count. rewrite (count_occ_In cell_eq_dec). lia. Qed.

Lemma count_app q r c : count (q ++ r) c = (count q c + count r c)%nat.
Proof. apply count_occ_app. Qed.

Lemma count_one d c : count [d] c = if cell_eqb d c then 1%nat else 0%nat.
Proof.
  unfold count. cbn. destruct (cell_eq_dec d c) as [->|N].
  - now rewrite cell_eqb_refl.
  - destruct (cell_eqb d c) eqn:E; auto. apply cell_eqb_eq in E. contradiction.
Qed.

Lemma sqd_sym a b : sqd a b = sqd b a.
Proof. unfold sqd. ring. Qed.
Lemma sqd_nonneg a b : 0 <= sqd a b.
Proof.
  unfold sqd. pose proof (Z.square_nonneg (row a - row b)). pose proof (Z.square_nonneg (col a - col b)). lia.
Qed.
Lemma sqd_refl a : sqd a a = 0.
Proof. unfold sqd. ring. Qed.

(** Generic loop rule. *)
Lemma fold_res_inv {A B} (f : A -> B -> res A) (P : list B -> A -> Prop) l : forall done a,
  (forall d x r a, done ++ l = d ++ x :: r -> P d a -> exists a', f a x = Ok a' /\ P (d ++ [x]) a') ->
  P done a -> exists a', fold_res f a l = Ok a' /\ P (done ++ l) a'.
Proof.
  induction l as [|x l IH]; intros done a Hs Ha; cbn.
  - rewrite app_nil_r. eauto.
  - destruct (Hs done x l a eq_refl Ha) as (a1 & E & Ha1). rewrite E. cbn.
    replace (done ++ x :: l) with ((done ++ [x]) ++ l) in * by now rewrite <- app_assoc.
    apply IH; auto.
Qed.

Section Core.
Variables R C : Z.
Hypothesis HRC : representable R C.

Definition ins := inside R C.

Lemma sqd_bound a b : ins a -> ins b -> sqd a b < inf.
Proof.
  destruct HRC as (HR & HC & H). intros [Ha1 Ha2] [Hb1 Hb2]. unfold sqd.
  assert (forall x y n, 0 <= x < n -> 0 <= y < n -> (x - y) * (x - y) <= (n - 1) * (n - 1)) as Q.
  { intros x y n Hx Hy. assert (x - y <= n - 1 /\ y - x <= n - 1) by lia. nia. }
  pose proof (Q _ _ _ Ha1 Hb1). pose proof (Q _ _ _ Ha2 Hb2). lia.
Qed.

Lemma squared_distance_ok a b : ins a -> ins b -> squared_distance a b = Ok (sqd a b).
Proof.
  intros Ha Hb. pose proof (sqd_bound a b Ha Hb) as H. unfold squared_distance. fold (sqd a b).
  destruct (Z.ltb_spec inf (sqd a b)); [lia|reflexivity].
Qed.

Lemma ins_valid c : ins c -> cell_is_valid c = true.
Proof. unfold ins, inside, cell_is_valid. lia. Qed.

(** The map [m] holds the information [f] and its queue the cells [q]. *)
Definition holds (m : dmap) (f : cell -> info) (q : list cell) : Prop :=
  gwf (d_grid m) /\ rows (d_grid m) = R /\ columns (d_grid m) = C /\
  (forall c, ins c -> cur m c = Ok (f c)) /\ map fst (d_open m) = q.

Definition upd (f : cell -> info) (n : cell) (x : info) (c : cell) : info := if cell_eqb n c then x else f c.

Lemma upd_same f n x : upd f n x n = x.
Proof. unfold upd. now rewrite cell_eqb_refl. Qed.
Lemma upd_other f n x c : c <> n -> upd f n x c = f c.
Proof. unfold upd. destruct (cell_eqb n c) eqn:E; auto. apply cell_eqb_eq in E. congruence. Qed.
Lemma upd_cases f n x c : (c = n /\ upd f n x c = x) \/ (c <> n /\ upd f n x c = f c).
Proof. destruct (cell_eq_dec c n) as [->|N]; [left; split; auto; apply upd_same|right; split; auto; now apply upd_other]. Qed.

Lemma put_holds m f q n x : holds m f q -> ins n -> exists m', put m n x = Ok m' /\ holds m' (upd f n x) q.
Proof.
  intros (Hw & Hr & Hc & Hf & Hq) Hn. unfold put.
  destruct (grid_set_spec (d_grid m) n x Hw) as (g' & E & Hw' & Hr' & Hc' & Hg); [rewrite Hr, Hc; exact Hn|].
  rewrite E. cbn. eexists. split; [reflexivity|]. unfold holds. cbn. rewrite Hr', Hc'.
  refine (conj Hw' (conj Hr (conj Hc (conj _ Hq)))). intros c Hi. unfold cur. cbn. rewrite Hg by (rewrite Hr, Hc; exact Hi). unfold upd.
  destruct (cell_eqb n c); auto. now apply Hf.
Qed.

Lemma push_holds m f q n v : holds m f q -> holds (push m n v) f (q ++ [n]).
Proof.
  intros (Hw & Hr & Hc & Hf & Hq). unfold holds, push. cbn.
  refine (conj Hw (conj Hr (conj Hc (conj Hf _)))). rewrite map_app. cbn. now rewrite Hq.
Qed.

Definition valid (i : info) : Prop := cell_is_valid (i_obst i) = true.
Definition is_obst (f : cell -> info) (c : cell) : Prop := i_obst (f c) = c.

(** Pointwise consistency. *)
Definition cons1 (c : cell) (i : info) : Prop :=
  (i_obst i = no_cell /\ i_dist i = inf) \/ (ins (i_obst i) /\ i_dist i = sqd c (i_obst i)).
Definition cons (f : cell -> info) : Prop := forall c, ins c -> cons1 c (f c).

Lemma cons_valid c i : cons1 c i -> (valid i <-> ins (i_obst i)).
Proof.
  intros [(H & _)|(H & _)]; unfold valid.
  - rewrite H. unfold ins, inside, cell_is_valid, no_cell. cbn. lia.
  - split; auto. intros _. now apply ins_valid.
Qed.

Lemma cons_invalid c i : cons1 c i -> ~ valid i -> i_obst i = no_cell /\ i_dist i = inf.
Proof. intros Hc Hv. pose proof (cons_valid c i Hc) as V. destruct Hc as [|(H & _)]; tauto. Qed.

Lemma cons_dist c i : ins c -> cons1 c i -> 0 <= i_dist i <= inf.
Proof.
  intros Hi [(_ & H)|(H1 & H2)]; rewrite ?H, ?H2.
  - unfold inf. lia.
  - pose proof (sqd_bound c _ Hi H1). pose proof (sqd_nonneg c (i_obst i)). lia.
Qed.

Lemma is_occupied_ok m f q i : holds m f q -> (valid i -> ins (i_obst i)) ->
  is_occupied m (i_obst i) = Ok (cell_is_valid (i_obst i) && cell_eqb (i_obst (f (i_obst i))) (i_obst i)).
Proof.
  intros (Hw & Hr & Hc & Hf & Hq) H. unfold is_occupied. unfold valid in H.
  destruct (cell_is_valid (i_obst i)); cbn; auto. now rewrite (Hf _ (H eq_refl)).
Qed.

(** The cells of the map refer to the same obstacles. *)
Definition same_obst (f f' : cell -> info) : Prop := forall c, ins c -> (is_obst f c <-> is_obst f' c).

Definition pending (f : cell -> info) (q : list cell) (c : cell) : Prop := i_proc (f c) = true /\ In c q.
Definition flagged (f : cell -> info) (c : cell) : Prop := i_raise (f c) = true.

(** The cell refers to an existing obstacle. *)
Definition good (f : cell -> info) (c : cell) : Prop := ins (i_obst (f c)) /\ is_obst f (i_obst (f c)).

(** The entries of the queue belong to empty cells or to cells with an existing obstacle. *)
Definition Qi (f : cell -> info) (q : list cell) : Prop :=
  forall c, In c q -> ins c /\ (i_obst (f c) = no_cell \/ good f c).
(** Between updates: empty cells or obstacles. *)
Definition Qb (f : cell -> info) (q : list cell) : Prop :=
  forall c, In c q -> ins c /\ (i_obst (f c) = no_cell \/ i_obst (f c) = c).
(** Raised cells wait in the queue. *)
Definition Fi (x : option cell) (f : cell -> info) (q : list cell) : Prop :=
  forall c, ins c -> x <> Some c -> flagged f c ->
    i_proc (f c) = true /\ (1 <= count q c)%nat /\ (valid (f c) -> i_obst (f c) = c /\ (2 <= count q c)%nat).
(** The neighbours of a processed cell know its obstacle. *)
Definition Li (x : option cell) (f : cell -> info) (q : list cell) : Prop :=
  forall s n, ins s -> ins n -> touches s n -> x <> Some s -> valid (f s) -> ~ flagged f s -> ~ pending f q s ->
    flagged f n \/ i_dist (f n) <= sqd (i_obst (f s)) n.
Definition Ei (f : cell -> info) : Prop :=
  (forall c, ins c -> ~ is_obst f c) -> exists c, ins c /\ i_obst (f c) = no_cell.

Record J (f : cell -> info) (q : list cell) : Prop := {
  j_cons : cons f; j_q : Qi f q; j_f : Fi None f q; j_l : Li None f q; j_e : Ei f }.

(** ** One raised neighbour *)
Lemma raise_one_spec m f q n : holds m f q -> cons f -> ins n ->
  exists m' f' q', raise_one m n = Ok m' /\ holds m' f' q' /\
    (((~ valid (f n) \/ flagged f n) /\ f' = f /\ q' = q) \/
     (valid (f n) /\ ~ flagged f n /\ is_obst f (i_obst (f n)) /\ f' = upd f n (set_proc (f n) true) /\ q' = q ++ [n]) \/
     (valid (f n) /\ ~ flagged f n /\ ~ is_obst f (i_obst (f n)) /\ f' = upd f n (Info inf no_cell true true) /\ q' = q ++ [n])).
Proof.
  intros Hm Hc Hn. unfold raise_one. pose proof Hm as (Hw & Hr & Hcc & Hf & Hq). rewrite (Hf n Hn). cbn.
  destruct (cell_is_valid (i_obst (f n))) eqn:Ev; cbn.
  2:{ exists m, f, q. split; auto. split; auto. left. split; auto. left. unfold valid. congruence. }
  destruct (i_raise (f n)) eqn:Er; cbn.
  { exists m, f, q. split; auto. }
  rewrite (is_occupied_ok m f q (f n) Hm) by apply (cons_valid n (f n) (Hc n Hn)). rewrite Ev. cbn.
  destruct (cell_eqb (i_obst (f (i_obst (f n)))) (i_obst (f n))) eqn:Eo; cbn.
  - destruct (put_holds m f q n (set_proc (f n) true) Hm Hn) as (m1 & E & Hm1). rewrite E. cbn.
    exists (push m1 n (i_dist (f n))), (upd f n (set_proc (f n) true)), (q ++ [n]). split; auto.
    split; [now apply push_holds|]. right; left. apply cell_eqb_eq in Eo. unfold flagged. rewrite Er. repeat split; auto; discriminate.
  - destruct (put_holds m f q n (set_proc (Info inf no_cell true (i_proc (f n))) true) Hm Hn) as (m1 & E & Hm1). rewrite E. cbn.
    exists (push m1 n inf), (upd f n (Info inf no_cell true true)), (q ++ [n]). split; auto.
    split; [now apply push_holds|]. right; right. unfold flagged. rewrite Er.
    repeat split; auto; try discriminate. unfold is_obst. intros H. apply cell_eqb_eq in H. congruence.
Qed.

(** State of the loop that raises the neighbours of [s]. *)
Record JR (s : cell) (f : cell -> info) (q : list cell) : Prop := {
  jr_cons : cons f; jr_q : Qi f q; jr_f : Fi (Some s) f q; jr_l : Li None f q; jr_e : Ei f;
  jr_flag : flagged f s; jr_proc : i_proc (f s) = true;
  jr_self : i_obst (f s) = no_cell \/ (i_obst (f s) = s /\ (1 <= count q s)%nat) }.

Definition raised (f : cell -> info) (q : list cell) (n : cell) : Prop :=
  i_obst (f n) = no_cell \/ flagged f n \/ pending f q n.

Lemma same_obst_refl f : same_obst f f.
Proof. intros c _. tauto. Qed.
Lemma same_obst_trans f g h : same_obst f g -> same_obst g h -> same_obst f h.
Proof. intros A B c Hc. rewrite (A c Hc). apply B; auto. Qed.

Lemma no_cell_not_ins : ~ ins no_cell.
Proof. unfold ins, inside, no_cell. cbn. lia. Qed.

Lemma same_obst_proc f n b : same_obst f (upd f n (set_proc (f n) b)).
Proof.
  intros c Hc. unfold is_obst. destruct (upd_cases f n (set_proc (f n) b) c) as [(-> & ->)|(_ & ->)]; cbn; tauto.
Qed.
Lemma same_obst_raise f n b : same_obst f (upd f n (set_raise (f n) b)).
Proof.
  intros c Hc. unfold is_obst. destruct (upd_cases f n (set_raise (f n) b) c) as [(-> & ->)|(_ & ->)]; cbn; tauto.
Qed.

Lemma pending_upd f q n x c : i_proc x = true -> pending f q c -> pending (upd f n x) (q ++ [n]) c.
Proof.
  intros Hx [H1 H2]. split; [|apply in_or_app; auto].
  destruct (upd_cases f n x c) as [(-> & ->)|(_ & ->)]; auto.
Qed.

(** Queueing a cell that refers to an existing obstacle keeps everything. *)
Lemma JR_queue s f q n : JR s f q -> ins n -> n <> s -> valid (f n) -> ~ flagged f n -> is_obst f (i_obst (f n)) ->
  JR s (upd f n (set_proc (f n) true)) (q ++ [n]).
Proof.
  intros [Hc HQ HF HL HE Hfl Hp Hs] Hn Hns Hv Hnf Ho. set (f' := upd f n (set_proc (f n) true)).
  assert (Heq : forall c, i_dist (f' c) = i_dist (f c) /\ i_obst (f' c) = i_obst (f c) /\ i_raise (f' c) = i_raise (f c)).
  { intros c. unfold f'. destruct (upd_cases f n (set_proc (f n) true) c) as [(-> & ->)|(_ & ->)]; auto. }
  assert (Hv' : forall c, valid (f' c) <-> valid (f c)).
  { intros c. unfold valid. destruct (Heq c) as (_ & -> & _). tauto. }
  assert (Hfl' : forall c, flagged f' c <-> flagged f c).
  { intros c. unfold flagged. destruct (Heq c) as (_ & _ & ->). tauto. }
  assert (Hio : forall c, is_obst f' c <-> is_obst f c).
  { intros c. unfold is_obst. destruct (Heq c) as (_ & -> & _). tauto. }
  assert (Hpe : forall c, pending f q c -> pending f' (q ++ [n]) c).
  { intros c. now apply pending_upd. }
  constructor.
  - intros c Hi. specialize (Hc c Hi). unfold cons1 in *. destruct (Heq c) as (-> & -> & _). auto.
  - intros c Hi. apply in_app_or in Hi as [Hi|[<-|[]]].
    + destruct (HQ c Hi) as (A & B). split; auto. unfold good. destruct (Heq c) as (_ & -> & _). rewrite Hio. auto.
    + split; auto. unfold good. destruct (Heq n) as (_ & -> & _). rewrite Hio. right. split; auto. now apply (cons_valid n (f n) (Hc n Hn)).
  - intros c Hi Hx Hf. rewrite Hfl' in Hf. destruct (HF c Hi Hx Hf) as (A & B & D). rewrite count_app, Hv'. destruct (Heq c) as (_ & -> & _). split; [|split].
    + unfold f'. destruct (upd_cases f n (set_proc (f n) true) c) as [(-> & ->)|(_ & ->)]; auto.
    + lia.
    + intros V. destruct (D V). split; auto. lia.
  - intros t u Ht Hu Htu Hx Vt Ft Pt. rewrite Hv' in Vt. rewrite Hfl' in *. destruct (Heq t) as (_ & -> & _). destruct (Heq u) as (-> & _ & _).
    apply HL; auto.
  - intros H. destruct HE as (c & A & B); [intros c Hi; rewrite <- Hio; auto|]. exists c. destruct (Heq c) as (_ & -> & _). auto.
  - now apply Hfl'.
  - unfold f'. rewrite upd_other; auto.
  - rewrite count_app. destruct (Heq s) as (_ & -> & _). destruct Hs as [|[]]; auto. right. split; auto. lia.
Qed.

(** Clearing a cell that refers to a removed obstacle. *)
Lemma good_same f f' c : same_obst f f' -> i_obst (f' c) = i_obst (f c) -> good f c -> good f' c.
Proof. intros Hs He [A B]. unfold good. rewrite He. split; auto. now apply (Hs (i_obst (f c)) A). Qed.

Lemma JR_clear s f q n : JR s f q -> ins n -> n <> s -> valid (f n) -> ~ flagged f n -> ~ is_obst f (i_obst (f n)) ->
  JR s (upd f n (Info inf no_cell true true)) (q ++ [n]) /\ same_obst f (upd f n (Info inf no_cell true true)).
Proof.
  intros [Hc HQ HF HL HE Hfl Hp Hs] Hn Hns Hv Hnf Ho. set (x := Info inf no_cell true true). set (f' := upd f n x).
  assert (Hsame : same_obst f f').
  { intros c Hi. unfold is_obst, f'. destruct (upd_cases f n x c) as [(-> & ->)|(_ & ->)]; cbn; [|tauto].
    split; intros H; [|exfalso; apply no_cell_not_ins; congruence]. exfalso. apply Ho. unfold is_obst. congruence. }
  assert (Hpe : forall c, pending f q c -> pending f' (q ++ [n]) c).
  { intros c. now apply pending_upd. }
  split; [|exact Hsame]. constructor.
  - intros c Hi. unfold f'. destruct (upd_cases f n x c) as [(-> & ->)|(_ & ->)]; auto. left. auto.
  - intros c Hi. assert (In c q \/ c = n) as Hi' by (apply in_app_or in Hi as [|[|[]]]; auto).
    assert (ins c) as Hic by (destruct Hi' as [H| ->]; [apply (HQ c H)|auto]). split; auto.
    destruct (upd_cases f n x c) as [(-> & E)|(N & E)]; fold f' in E.
    + left. now rewrite E.
    + destruct Hi' as [H|H]; [|contradiction]. destruct (HQ c H) as (_ & [B|B]); [left; now rewrite E|].
      right. apply (good_same f f' c); auto. now rewrite E.
  - intros c Hi Hx Hf. rewrite count_app, count_one. unfold flagged in Hf.
    destruct (upd_cases f n x c) as [(-> & E)|(N & E)]; fold f' in E; rewrite E in *.
    + rewrite cell_eqb_refl. refine (conj eq_refl (conj _ _)); [lia|intros V; discriminate V].
    + destruct (HF c Hi Hx Hf) as (A & B & D). refine (conj A (conj _ _)); [lia|intros V; destruct (D V); split; auto; lia].
  - intros t u Ht Hu Htu Hx Vt Ft Pt.
    destruct (upd_cases f n x u) as [(-> & E)|(N & E)]; fold f' in E.
    { left. unfold flagged. now rewrite E. }
    destruct (upd_cases f n x t) as [(-> & Et)|(Nt & Et)]; fold f' in Et.
    { rewrite Et in Vt. discriminate Vt. }
    unfold flagged in *. rewrite E, Et in *. apply HL; auto.
  - intros H. exists n. split; auto. unfold f'. now rewrite upd_same.
  - unfold flagged, f'. rewrite upd_other; auto.
  - unfold f'. rewrite upd_other; auto.
  - unfold f'. rewrite upd_other, count_app; auto. destruct Hs as [|[]]; auto. right. split; auto. lia.
Qed.

(** ** Work that remains *)
Definition stale (f : cell -> info) (c : cell) : bool :=
  cell_is_valid (i_obst (f c)) && negb (cell_eqb (i_obst (f (i_obst (f c)))) (i_obst (f c))).
Definition wA (f : cell -> info) (c : cell) : Z := (if stale f c then 2 else 0) + (if i_raise (f c) then 1 else 0).

Lemma stale_spec f c : cons1 c (f c) -> stale f c = true <-> valid (f c) /\ ~ good f c.
Proof.
  intros Hc. pose proof (cons_valid c (f c) Hc) as V. unfold stale, good, is_obst. unfold valid in *.
  rewrite andb_true_iff, negb_true_iff.
  destruct (cell_eqb (i_obst (f (i_obst (f c)))) (i_obst (f c))) eqn:E.
  - apply cell_eqb_eq in E. intuition congruence.
  - assert (i_obst (f (i_obst (f c))) <> i_obst (f c)) by (intros H; apply cell_eqb_eq in H; congruence). tauto.
Qed.

Record noworse (f f' : cell -> info) : Prop := {
  nw_same : same_obst f f';
  nw_work : forall c, ins c -> wA f' c <= wA f c;
  nw_from : forall c, ins c -> valid (f' c) -> i_obst (f' c) = i_obst (f c) \/ good f' c }.

Lemma noworse_refl f : noworse f f.
Proof. constructor; auto; [apply same_obst_refl|intros; lia]. Qed.

Lemma noworse_trans f g h : noworse f g -> noworse g h -> noworse f h.
Proof.
  intros [A1 A2 A3] [B1 B2 B3]. constructor.
  - now apply same_obst_trans with g.
  - intros c Hc. specialize (A2 c Hc). specialize (B2 c Hc). lia.
  - intros c Hc Hv. destruct (B3 c Hc Hv) as [E|G]; auto. rewrite E.
    destruct (A3 c Hc) as [E'|G']; auto.
    + unfold valid in *. now rewrite <- E.
    + right. apply (good_same g h c); auto.
Qed.

(** The weight of cells that keep their obstacle and flag is unchanged. *)
Lemma wA_eq f f' c : cons1 c (f c) -> same_obst f f' -> i_obst (f' c) = i_obst (f c) -> i_raise (f' c) = i_raise (f c) ->
  wA f' c = wA f c.
Proof.
  intros Hc Hs Ho Hr. unfold wA, stale. rewrite Ho, Hr.
  destruct (cell_is_valid (i_obst (f c))) eqn:V; cbn; auto.
  pose proof (proj1 (cons_valid c (f c) Hc) V) as Hi. specialize (Hs _ Hi). unfold is_obst in Hs.
  destruct (cell_eqb (i_obst (f (i_obst (f c)))) (i_obst (f c))) eqn:E1, (cell_eqb (i_obst (f' (i_obst (f c)))) (i_obst (f c))) eqn:E2; cbn; auto; exfalso.
  - apply cell_eqb_eq in E1. apply Hs in E1. apply cell_eqb_eq in E1. congruence.
  - apply cell_eqb_eq in E2. apply Hs in E2. apply cell_eqb_eq in E2. congruence.
Qed.

Lemma wA_nonneg f c : 0 <= wA f c.
Proof. unfold wA. destruct (stale f c), (i_raise (f c)); lia. Qed.

Lemma noworse_proc f n b : cons f -> noworse f (upd f n (set_proc (f n) b)).
Proof.
  intros Hc. pose proof (same_obst_proc f n b) as Hs.
  assert (Heq : forall c, i_obst (upd f n (set_proc (f n) b) c) = i_obst (f c) /\ i_raise (upd f n (set_proc (f n) b) c) = i_raise (f c)).
  { intros c. destruct (upd_cases f n (set_proc (f n) b) c) as [(-> & ->)|(_ & ->)]; auto. }
  constructor; auto.
  - intros c Hi. rewrite (wA_eq f _ c (Hc c Hi) Hs) by apply Heq. lia.
  - intros c _ _. left. apply Heq.
Qed.

Lemma noworse_clear f n : cons f -> ins n -> valid (f n) -> ~ good f n ->
  same_obst f (upd f n (Info inf no_cell true true)) -> noworse f (upd f n (Info inf no_cell true true)).
Proof.
  intros Hc Hn Hv Hg Hs. constructor; auto.
  - intros c Hi. destruct (upd_cases f n (Info inf no_cell true true) c) as [(-> & E)|(N & E)].
    + unfold wA at 1, stale at 1. rewrite E. cbn. pose proof (proj2 (stale_spec f n (Hc n Hn)) (conj Hv Hg)) as S.
      unfold wA. rewrite S. destruct (i_raise (f n)); lia.
    + rewrite (wA_eq f _ c (Hc c Hi) Hs); [lia|now rewrite E|now rewrite E].
  - intros c _ V. destruct (upd_cases f n (Info inf no_cell true true) c) as [(-> & E)|(N & E)]; rewrite E in *; auto. discriminate V.
Qed.

Lemma touches_neq a b : touches a b -> a <> b.
Proof. unfold touches. intros H ->. lia. Qed.

Lemma raised_keep f q n x c : i_proc x = true -> c <> n -> raised f q c -> raised (upd f n x) (q ++ [n]) c.
Proof.
  intros Hx Hn. unfold raised, flagged. pose proof (pending_upd f q n x c Hx). rewrite !(upd_other f n x c Hn). tauto.
Qed.

Lemma raise_loop m f q s : holds m f q -> JR s f q -> ins s ->
  exists m' f' q', fold_res raise_one m (get_neighbors R C s) = Ok m' /\ holds m' f' q' /\ JR s f' q' /\ (noworse f f' /\ forall c, pending f q c -> pending f' q' c) /\
    forall n, ins n -> touches s n -> raised f' q' n.
Proof.
  intros Hm HJ Hs.
  destruct (fold_res_inv raise_one (fun d m' => exists f' q', holds m' f' q' /\ JR s f' q' /\ (noworse f f' /\ forall c, pending f q c -> pending f' q' c) /\ forall n, In n d -> raised f' q' n)
    (get_neighbors R C s) [] m) as (m' & E & f' & q' & A & B & D & F).
  - cbn [app]. intros d n r m1 El (f1 & q1 & A & B & (D & DP) & F).
    assert (Hin : In n (get_neighbors R C s)) by (rewrite El; apply in_or_app; right; now left).
    apply (get_neighbors_In R C s n Hs) in Hin as [Hn Ht]. pose proof (touches_neq _ _ Ht) as Hne.
    assert (Hnd : ~ In n d).
    { pose proof (get_neighbors_NoDup R C s) as N. rewrite El in N. apply NoDup_remove_2 in N. intros K. apply N. apply in_or_app; auto. }
    destruct (raise_one_spec m1 f1 q1 n A (jr_cons _ _ _ B) Hn) as (m2 & f2 & q2 & E2 & H2 & Hcase).
    exists m2. split; auto. exists f2, q2. split; auto.
    destruct Hcase as [(Hk & -> & ->)|[(V & NF & Ho & -> & ->)|(V & NF & Ho & -> & ->)]].
    + split; auto. split; auto. intros k Hk'. apply in_app_or in Hk' as [|[<-|[]]]; auto. unfold raised.
      destruct Hk as [Hk|]; auto. left. apply (cons_invalid n (f1 n)); auto. now apply (jr_cons _ _ _ B).
    + split; [apply JR_queue; auto|]. split.
      * split; [|intros k Kk; now apply pending_upd; auto]. apply noworse_trans with f1; auto. apply noworse_proc. apply (jr_cons _ _ _ B).
      * intros k Hk'. apply in_app_or in Hk' as [Hk'|[<-|[]]].
        -- apply raised_keep; auto. intros ->. auto.
        -- right; right. split; [now rewrite upd_same|apply in_or_app; right; now left].
    + destruct (JR_clear s f1 q1 n B Hn (not_eq_sym Hne) V NF Ho) as (X & Y). split; auto. split.
      * split; [|intros k Kk; now apply pending_upd; auto]. apply noworse_trans with f1; auto. apply noworse_clear; auto. { apply (jr_cons _ _ _ B). } intros [_ G]. auto.
      * intros k Hk'. apply in_app_or in Hk' as [Hk'|[<-|[]]].
        -- apply raised_keep; auto. intros ->. auto.
        -- left. now rewrite upd_same.
  - exists f, q. split; auto. split; auto. split; [split; [apply noworse_refl|auto]|]. intros n [].
  - cbn [app] in F. exists m', f', q'. refine (conj E (conj A (conj B (conj D _)))).
    intros n Hn Ht. apply F. now apply get_neighbors_In.
Qed.

(** The end of the raising branch. *)
Lemma JR_end s f q : JR s f q -> ins s -> (forall n, ins n -> touches s n -> raised f q n) ->
  J (upd f s (set_raise (f s) false)) q /\ noworse f (upd f s (set_raise (f s) false)) /\
  wA (upd f s (set_raise (f s) false)) s < wA f s.
Proof.
  intros [Hc HQ HF HL HE Hfl Hp Hs] Hi Hr. set (f' := upd f s (set_raise (f s) false)).
  pose proof (same_obst_raise f s false) as Hsame. fold f' in Hsame.
  assert (Heq : forall c, i_dist (f' c) = i_dist (f c) /\ i_obst (f' c) = i_obst (f c) /\ i_proc (f' c) = i_proc (f c)).
  { intros c. unfold f'. destruct (upd_cases f s (set_raise (f s) false) c) as [(-> & ->)|(_ & ->)]; auto. }
  assert (Hes : f' s = set_raise (f s) false) by apply upd_same.
  assert (Heo : forall c, c <> s -> f' c = f c) by (intros; now apply upd_other).
  assert (Hst : forall c, stale f' c = stale f c).
  { intros c. unfold stale. destruct (Heq c) as (_ & -> & _). now destruct (Heq (i_obst (f c))) as (_ & -> & _). }
  split; [constructor|split].
  - intros c Hic. specialize (Hc c Hic). unfold cons1 in *. destruct (Heq c) as (-> & -> & _). auto.
  - intros c Hin. destruct (HQ c Hin) as (A & B). split; auto. destruct (Heq c) as (_ & E & _).
    destruct B as [B|B]; [left; congruence|right; now apply (good_same f f' c)].
  - intros c Hic _ Hf. destruct (cell_eq_dec c s) as [->|N].
    + unfold flagged in Hf. rewrite Hes in Hf. discriminate Hf.
    + unfold flagged in *. rewrite (Heo c N) in *. apply HF; auto. congruence.
  - intros t u Ht Hu Htu _ Vt Ft Pt. destruct (Heq t) as (_ & Et & Ept). destruct (Heq u) as (Eu & _ & _). rewrite Et, Eu.
    destruct (cell_eq_dec t s) as [->|Nt].
    { exfalso. apply Pt. split; [congruence|]. unfold valid in Vt. rewrite Et in Vt. destruct Hs as [K|[K L]].
      - rewrite K in Vt. discriminate Vt.
      - now apply count_In. }
    unfold flagged, pending in *. rewrite (Heo t Nt) in *.
    destruct (cell_eq_dec u s) as [->|Nu].
    { destruct Hs as [K|[K L]].
      - exfalso. destruct (Hr t Ht) as [X|[X|X]].
        + now apply touches_sym.
        + unfold valid in Vt. rewrite X in Vt. discriminate Vt.
        + now apply Ft.
        + now apply Pt.
      - right. pose proof (Hc s Hi) as [(X & _)|(X & Y)].
        + exfalso. rewrite K in X. apply no_cell_not_ins. now rewrite <- X.
        + rewrite Y, K, sqd_refl. apply sqd_nonneg. }
    rewrite (Heo u Nu). apply HL; auto. discriminate.
  - intros H. destruct HE as (c & A & B); [intros c Hic K; apply (H c Hic); now apply Hsame|]. exists c. split; auto.
    destruct (Heq c) as (_ & E & _). congruence.
  - constructor; auto.
    + intros c Hic. unfold wA. rewrite Hst. destruct (cell_eq_dec c s) as [->|N].
      * rewrite Hes. cbn. destruct (i_raise (f s)); lia.
      * rewrite (Heo c N). lia.
    + intros c _ _. left. apply Heq.
  - unfold wA. rewrite Hst, Hes. cbn. rewrite Hfl. lia.
Qed.

(** ** Setting and unsetting cells between updates *)
Record JB (f : cell -> info) (q : list cell) : Prop := { jb_j : J f q; jb_q : Qb f q }.

Lemma set_ok m f q c : holds m f q -> JB f q -> ins c ->
  exists m', set_cell m c = Ok m' /\ holds m' (upd f c (Info 0 c (i_raise (f c)) true)) (q ++ [c]) /\
    JB (upd f c (Info 0 c (i_raise (f c)) true)) (q ++ [c]).
Proof.
  intros Hm [[Hc HQ HF HL HE] HB] Hi. unfold set_cell. pose proof Hm as (_ & _ & _ & Hf & _). rewrite (Hf c Hi). cbn [bind].
  set (x := Info 0 c (i_raise (f c)) true). destruct (put_holds m f q c x Hm Hi) as (m1 & E & Hm1). rewrite E. cbn [bind].
  exists (push m1 c 0). split; auto. split; [now apply push_holds|]. set (f' := upd f c x).
  assert (Hes : f' c = x) by apply upd_same.
  assert (Heo : forall d, d <> c -> f' d = f d) by (intros; now apply upd_other).
  assert (Hself : is_obst f' c) by (unfold is_obst; now rewrite Hes).
  assert (HB' : Qb f' (q ++ [c])).
  { intros d Hd. destruct (cell_eq_dec d c) as [->|N].
    - split; auto.
    - rewrite (Heo d N). apply HB. apply in_app_or in Hd as [|[|[]]]; congruence. }
  split; auto. constructor.
  - intros d Hd. destruct (cell_eq_dec d c) as [->|N].
    + rewrite Hes. right. cbn. now rewrite sqd_refl.
    + rewrite (Heo d N). auto.
  - intros d Hd. destruct (HB' d Hd) as (A & [B|B]); split; auto. right. unfold good. rewrite B. auto.
  - intros d Hd _ Hfl. rewrite count_app, count_one. destruct (cell_eq_dec d c) as [->|N].
    + unfold flagged in Hfl. rewrite Hes in *. cbn in Hfl. destruct (HF c Hd ltac:(discriminate) Hfl) as (A & B & D).
      rewrite cell_eqb_refl. cbn. split; auto. split; [lia|]. intros _. split; auto. lia.
    + unfold flagged in Hfl. rewrite (Heo d N) in *. destruct (HF d Hd ltac:(discriminate) Hfl) as (A & B & D).
      split; auto. split; [lia|]. intros V. destruct (D V). split; auto. lia.
  - intros s n Hs Hn Ht _ Vs Fs Ps. destruct (cell_eq_dec s c) as [->|Ns].
    + exfalso. apply Ps. split; [now rewrite Hes|apply in_or_app; right; now left].
    + destruct (cell_eq_dec n c) as [->|Nn].
      * right. rewrite Hes. apply sqd_nonneg.
      * unfold flagged in *. rewrite (Heo s Ns), (Heo n Nn) in *. apply HL; auto; [discriminate|]. intros [P1 P2]. apply Ps.
        split; [now rewrite (Heo s Ns)|apply in_or_app; auto].
  - intros H. exfalso. now apply (H c Hi).
Qed.

Lemma unset_ok m f q c : holds m f q -> JB f q -> ins c ->
  exists m', unset_cell m c = Ok m' /\ holds m' (upd f c (Info inf no_cell true true)) (q ++ [c]) /\
    JB (upd f c (Info inf no_cell true true)) (q ++ [c]).
Proof.
  intros Hm [[Hc HQ HF HL HE] HB] Hi. unfold unset_cell. pose proof Hm as (_ & _ & _ & Hf & _).
  set (x := Info inf no_cell true true). destruct (put_holds m f q c x Hm Hi) as (m1 & E & Hm1). rewrite E. cbn [bind].
  exists (push m1 c inf). split; auto. split; [now apply push_holds|]. set (f' := upd f c x).
  assert (Hes : f' c = x) by apply upd_same.
  assert (Heo : forall d, d <> c -> f' d = f d) by (intros; now apply upd_other).
  assert (HB' : Qb f' (q ++ [c])).
  { intros d Hd. destruct (cell_eq_dec d c) as [->|N].
    - split; auto. left. now rewrite Hes.
    - rewrite (Heo d N). apply HB. apply in_app_or in Hd as [|[|[]]]; congruence. }
  split; auto. constructor.
  - intros d Hd. destruct (cell_eq_dec d c) as [->|N].
    + rewrite Hes. left. auto.
    + rewrite (Heo d N). auto.
  - intros d Hd. destruct (HB' d Hd) as (A & [B|B]); split; auto. right. unfold good, is_obst. rewrite !B. auto.
  - intros d Hd _ Hfl. rewrite count_app, count_one. destruct (cell_eq_dec d c) as [->|N].
    + rewrite Hes, cell_eqb_refl. cbn. split; auto. split; [lia|]. intros V. discriminate V.
    + unfold flagged in Hfl. rewrite (Heo d N) in *. destruct (HF d Hd ltac:(discriminate) Hfl) as (A & B & D).
      split; auto. split; [lia|]. intros V. destruct (D V). split; auto. lia.
  - intros s n Hs Hn Ht _ Vs Fs Ps. destruct (cell_eq_dec s c) as [->|Ns].
    + rewrite Hes in Vs. discriminate Vs.
    + unfold flagged in *. destruct (cell_eq_dec n c) as [->|Nn].
      * left. now rewrite Hes.
      * rewrite (Heo s Ns), (Heo n Nn) in *. apply HL; auto; [discriminate|]. intros [P1 P2]. apply Ps.
        split; [now rewrite (Heo s Ns)|apply in_or_app; auto].
  - intros H. exists c. split; auto. now rewrite Hes.
Qed.

(** ** The Voronoi map *)
Definition vok (v : option dmap) : Prop := match v with None => True | Some w => exists f q, holds w f q /\ JB f q end.
(** The Voronoi map has an edge at the cell. *)
Definition vedge (v : option dmap) (c : cell) : Prop :=
  match v with None => False | Some w => exists i, cur w c = Ok i /\ i_obst i = c end.
Definition occ_ok (g : grid Z) : Prop := gwf g /\ rows g = R /\ columns g = C.

Lemma set_vok w c : vok (Some w) -> ins c -> exists w', set_cell w c = Ok w' /\ vok (Some w') /\
  forall d, ins d -> vedge (Some w') d -> d = c \/ vedge (Some w) d.
Proof.
  intros (f & q & A & B) Hc. destruct (set_ok w f q c A B Hc) as (w' & E & D & F). exists w'. split; auto.
  split; [cbn; eauto|]. intros d Hd (i & Ei & Eo). destruct (cell_eq_dec d c) as [|N]; auto. right.
  destruct D as (_ & _ & _ & D & _). destruct A as (_ & _ & _ & A & _). rewrite (D d Hd), upd_other in Ei by auto.
  exists (f d). split; auto. congruence.
Qed.
Lemma unset_vok w c : vok (Some w) -> ins c -> exists w', unset_cell w c = Ok w' /\ vok (Some w') /\
  forall d, ins d -> vedge (Some w') d -> d <> c /\ vedge (Some w) d.
Proof.
  intros (f & q & A & B) Hc. destruct (unset_ok w f q c A B Hc) as (w' & E & D & F). exists w'. split; auto.
  split; [cbn; eauto|]. intros d Hd (i & Ei & Eo).
  destruct D as (_ & _ & _ & D & _). destruct A as (_ & _ & _ & A & _). rewrite (D d Hd) in Ei. destruct (cell_eq_dec d c) as [->|N].
  - exfalso. rewrite upd_same in Ei. injection Ei as <-. cbn in Eo. apply no_cell_not_ins. now rewrite Eo.
  - split; auto. rewrite upd_other in Ei by auto. exists (f d). split; auto. congruence.
Qed.

Lemma check_voro_ok occ m f q w s n : occ_ok occ -> holds m f q -> cons f -> ins s -> ins n -> touches s n -> valid (f s) -> valid (f n) ->
  vok (Some w) -> exists w', check_voro occ m w s n = Ok w' /\ vok (Some w') /\
    forall d, ins d -> vedge (Some w') d -> vedge (Some w) d \/ ~ is_obst f d.
Proof.
  intros (Hg & Hgr & Hgc) (Hw & Hr & Hcc & Hf & Hq) Hc Hs Hn Ht Vs Vn Hv. unfold check_voro.
  rewrite (Hf s Hs), (Hf n Hn). cbn [bind].
  pose proof (proj1 (cons_valid s (f s) (Hc s Hs)) Vs) as Os. pose proof (proj1 (cons_valid n (f n) (Hc n Hn)) Vn) as On.
  assert (Ds : i_dist (f s) = sqd s (i_obst (f s))).
  { destruct (Hc s Hs) as [(E & _)|(_ & E)]; auto. exfalso. apply no_cell_not_ins. now rewrite <- E. }
  assert (Dn : i_dist (f n) = sqd n (i_obst (f n))).
  { destruct (Hc n Hn) as [(E & _)|(_ & E)]; auto. exfalso. apply no_cell_not_ins. now rewrite <- E. }
  destruct (grid_get_ok occ (i_obst (f s)) Hg) as [a Ea]; [rewrite Hgr, Hgc; exact Os|].
  destruct (grid_get_ok occ (i_obst (f n)) Hg) as [b Eb]; [rewrite Hgr, Hgc; exact On|].
  rewrite Ea, Eb. cbn [bind]. destruct (a =? b); [eauto|].
  destruct (_ && _); [|eauto].
  destruct ((1 <? Z.abs (row (i_obst (f s)) - row (i_obst (f n)))) || (1 <? Z.abs (col (i_obst (f s)) - col (i_obst (f n))))) eqn:Efar; [|eauto].
  assert (Hfar : 4 <= sqd (i_obst (f s)) (i_obst (f n))).
  { assert (2 <= Z.abs (row (i_obst (f s)) - row (i_obst (f n))) \/ 2 <= Z.abs (col (i_obst (f s)) - col (i_obst (f n)))) as K by lia.
    unfold sqd. clear - K. set (x := row _ - row _) in *. set (y := col _ - col _) in *. clearbody x y.
    pose proof (Z.square_nonneg x). pose proof (Z.square_nonneg y). destruct K; [assert (4 <= x * x) by nia|assert (4 <= y * y) by nia]; lia. }
  clear Efar.
  assert (Hnear : sqd s n <= 2).
  { unfold touches in Ht. unfold sqd. set (x := row s - row n) in *. set (y := col s - col n) in *. clearbody x y.
    assert (-1 <= x <= 1) by lia. assert (-1 <= y <= 1) by lia. nia. }
  rewrite !squared_distance_ok by auto. cbn [bind].
  destruct (_ || _); [eauto|].
  set (sS := sqd s (i_obst (f n)) - i_dist (f s)). set (nS := sqd n (i_obst (f s)) - i_dist (f n)).
  assert (Ks : sS <= nS -> ~ is_obst f s).
  { intros L K. unfold is_obst in K. unfold sS, nS in L. rewrite Ds, Dn, K, sqd_refl in L. rewrite K in Hfar.
    pose proof (sqd_nonneg n (i_obst (f n))). rewrite (sqd_sym n s) in L. lia. }
  assert (Kn : nS <= sS -> ~ is_obst f n).
  { intros L K. unfold is_obst in K. unfold sS, nS in L. rewrite Ds, Dn, K, sqd_refl in L. rewrite K in Hfar.
    pose proof (sqd_nonneg s (i_obst (f s))). rewrite (sqd_sym n (i_obst (f s))) in L. lia. }
  destruct (Z.leb_spec sS nS) as [L1|L1].
  - destruct (set_vok w s Hv Hs) as (w1 & E1 & V1 & Q1). rewrite E1. cbn [bind].
    assert (Q1' : forall d, ins d -> vedge (Some w1) d -> vedge (Some w) d \/ ~ is_obst f d).
    { intros d Hd Kd. destruct (Q1 d Hd Kd) as [->|]; auto. }
    destruct (Z.leb_spec nS sS) as [L2|L2]; [|eauto].
    destruct (set_vok w1 n V1 Hn) as (w2 & E2 & V2 & Q2). exists w2. split; auto. split; auto.
    intros d Hd Kd. destruct (Q2 d Hd Kd) as [->|]; auto.
  - cbn [bind]. destruct (Z.leb_spec nS sS) as [L2|L2]; [|eauto].
    destruct (set_vok w n Hv Hn) as (w2 & E2 & V2 & Q2). exists w2. split; auto. split; auto.
    intros d Hd Kd. destruct (Q2 d Hd Kd) as [->|]; auto.
Qed.

(** ** One lowered neighbour *)
Lemma lower_one_spec occ m v f q s n : occ_ok occ -> holds m f q -> cons f -> ins s -> ins n -> touches s n -> valid (f s) -> vok v ->
  exists m' v' f' q', lower_one occ s (m, v) n = Ok (m', v') /\ holds m' f' q' /\ (vok v' /\
    forall d, ins d -> vedge v' d -> vedge v d \/ ~ is_obst f d) /\
    ((flagged f n /\ f' = f /\ q' = q) \/
     (~ flagged f n /\ i_dist (f n) <= sqd (i_obst (f s)) n /\ f' = f /\ q' = q) \/
     (~ flagged f n /\ sqd (i_obst (f s)) n < i_dist (f n) /\
      f' = upd f n (Info (sqd (i_obst (f s)) n) (i_obst (f s)) false true) /\ q' = q ++ [n])).
Proof.
  intros Hg Hm Hc Hs Hn Ht Vs Hv. unfold lower_one. pose proof Hm as (Hw & Hr & Hcc & Hf & Hq). rewrite (Hf n Hn). cbn [bind].
  destruct (i_raise (f n)) eqn:Er.
  { exists m, v, f, q. split; auto. split; auto. }
  rewrite (Hf s Hs). cbn [bind]. pose proof (proj1 (cons_valid s (f s) (Hc s Hs)) Vs) as Os.
  rewrite squared_distance_ok by auto. cbn [bind]. unfold flagged. rewrite Er.
  assert (false <> true) as FT by discriminate.
  destruct (Z.ltb_spec (sqd (i_obst (f s)) n) (i_dist (f n))) as [Hd|Hd].
  - destruct (put_holds m f q n (Info (sqd (i_obst (f s)) n) (i_obst (f s)) false true) Hm Hn) as (m1 & E & Hm1). rewrite E. cbn [bind].
    eexists _, _, _, _. split; [reflexivity|]. split; [apply push_holds, Hm1|]. split; auto. right; right. auto.
  - assert (Vn : valid (f n)).
    { destruct (Hc n Hn) as [(_ & D)|(D & _)]; [|now apply ins_valid]. pose proof (sqd_bound (i_obst (f s)) n Os Hn). lia. }
    destruct v as [w|].
    + destruct (check_voro_ok occ m f q w s n Hg Hm Hc Hs Hn Ht Vs Vn Hv) as (w' & E & Hw'). rewrite E. cbn [bind].
      exists m, (Some w'), f, q. split; auto. split; auto. split; auto. right; left. auto.
    + exists m, None, f, q. split; auto. split; auto. split; auto. right; left. auto.
Qed.

Record JL (s : cell) (f : cell -> info) (q : list cell) : Prop := {
  jl_cons : cons f; jl_q : Qi f q; jl_f : Fi None f q; jl_l : Li (Some s) f q; jl_good : good f s; jl_flag : ~ flagged f s }.

Definition lowered (s : cell) (f : cell -> info) (n : cell) : Prop := flagged f n \/ i_dist (f n) <= sqd (i_obst (f s)) n.

Lemma JL_lower s f q n : JL s f q -> ins s -> ins n -> n <> s -> ~ flagged f n -> sqd (i_obst (f s)) n < i_dist (f n) ->
  let f' := upd f n (Info (sqd (i_obst (f s)) n) (i_obst (f s)) false true) in
  JL s f' (q ++ [n]) /\ noworse f f'.
Proof.
  intros [Hc HQ HF HL [G1 G2] Hfl] Hs Hn Hns Hnf Hd. set (x := Info _ _ _ _). intros f'.
  assert (Hes : f' n = x) by apply upd_same.
  assert (Heo : forall d, d <> n -> f' d = f d) by (intros; now apply upd_other).
  assert (Hno : ~ is_obst f n).
  { intros K. unfold is_obst in K. pose proof (sqd_nonneg (i_obst (f s)) n). destruct (Hc n Hn) as [(X & _)|(_ & X)].
    - apply no_cell_not_ins. congruence.
    - rewrite K, sqd_refl in X. lia. }
  assert (Hsame : same_obst f f').
  { intros c Hi. destruct (cell_eq_dec c n) as [->|N].
    - unfold is_obst at 2. rewrite Hes. cbn. split; [contradiction|]. intros K. rewrite K in G2. contradiction.
    - unfold is_obst. rewrite (Heo c N). tauto. }
  assert (Hgn : good f' n).
  { unfold good. rewrite Hes. cbn. split; auto. now apply Hsame. }
  split; constructor.
  - intros c Hi. destruct (cell_eq_dec c n) as [->|N]; [|rewrite (Heo c N); auto]. rewrite Hes. right. cbn. split; auto. apply sqd_sym.
  - intros c Hi. destruct (cell_eq_dec c n) as [->|N].
    + split; auto.
    + apply in_app_or in Hi as [Hi|[|[]]]; [|congruence]. destruct (HQ c Hi) as (A & B). split; auto.
      destruct B as [B|B]; [left; now rewrite (Heo c N)|right; apply (good_same f f' c); auto; now rewrite (Heo c N)].
  - intros c Hi _ Hf. rewrite count_app. destruct (cell_eq_dec c n) as [->|N].
    + unfold flagged in Hf. rewrite Hes in Hf. discriminate Hf.
    + unfold flagged in Hf. rewrite (Heo c N) in *. destruct (HF c Hi ltac:(discriminate) Hf) as (A & B & D).
      split; auto. split; [lia|]. intros V. destruct (D V). split; auto. lia.
  - intros t u Ht Hu Htu Hx Vt Ft Pt. destruct (cell_eq_dec t n) as [->|Nt].
    { exfalso. apply Pt. split; [now rewrite Hes|apply in_or_app; right; now left]. }
    unfold flagged in *. rewrite (Heo t Nt) in *.
    assert (L : i_raise (f u) = true \/ i_dist (f u) <= sqd (i_obst (f t)) u).
    { apply HL; auto. intros [P1 P2]. apply Pt. split; [now rewrite (Heo t Nt)|apply in_or_app; auto]. }
    destruct (cell_eq_dec u n) as [->|Nu].
    + rewrite Hes. cbn. right. destruct L; [contradiction|lia].
    + rewrite (Heo u Nu). auto.
  - apply (good_same f f' s); auto; [now rewrite (Heo s (not_eq_sym Hns))|]. split; auto.
  - unfold flagged. now rewrite (Heo s (not_eq_sym Hns)).
  - exact Hsame.
  - intros c Hi. destruct (cell_eq_dec c n) as [->|N].
    + unfold wA at 1. assert (stale f' n = false) as ->.
      { destruct (stale f' n) eqn:E; auto. apply stale_spec in E as [_ E]; [contradiction|]. rewrite Hes. right. cbn. split; auto. apply sqd_sym. }
      rewrite Hes. cbn. apply wA_nonneg.
    + rewrite (wA_eq f f' c (Hc c Hi) Hsame); [lia|now rewrite (Heo c N)|now rewrite (Heo c N)].
  - intros c Hi V. destruct (cell_eq_dec c n) as [->|N]; [now right|]. left. now rewrite (Heo c N).
Qed.

Lemma lower_loop occ m v f q s : occ_ok occ -> holds m f q -> JL s f q -> ins s -> vok v ->
  exists m' v' f' q', fold_res (lower_one occ s) (m, v) (get_neighbors R C s) = Ok (m', v') /\ holds m' f' q' /\ (vok v' /\ (forall d, ins d -> vedge v' d -> vedge v d \/ ~ is_obst f d) /\ forall c, pending f q c -> pending f' q' c) /\
    JL s f' q' /\ noworse f f' /\ (forall n, ins n -> touches s n -> lowered s f' n) /\
    (forall c, ins c -> i_dist (f' c) <= i_dist (f c)) /\
    (q' = q \/ exists c, ins c /\ i_dist (f' c) < i_dist (f c)).
Proof.
  intros Hg Hm HJ Hs Hv.
  destruct (fold_res_inv (lower_one occ s) (fun d st => exists f' q', holds (fst st) f' q' /\ (vok (snd st) /\ (forall d, ins d -> vedge (snd st) d -> vedge v d \/ ~ is_obst f d) /\ forall c, pending f q c -> pending f' q' c) /\ JL s f' q' /\ noworse f f' /\
     (forall n, In n d -> lowered s f' n) /\ (forall c, ins c -> i_dist (f' c) <= i_dist (f c)) /\
     (q' = q \/ exists c, ins c /\ i_dist (f' c) < i_dist (f c)))
    (get_neighbors R C s) [] (m, v)) as ((m' & v') & E & f' & q' & A & B & D & F & G & H & I).
  - cbn [app]. intros d n r (m1 & v1) El (f1 & q1 & A & B & D & F & G & H & I). cbn [fst snd] in *.
    assert (Hin : In n (get_neighbors R C s)) by (rewrite El; apply in_or_app; right; now left).
    apply (get_neighbors_In R C s n Hs) in Hin as [Hn Ht]. pose proof (touches_neq _ _ Ht) as Hne.
    assert (Hnd : ~ In n d).
    { pose proof (get_neighbors_NoDup R C s) as N. rewrite El in N. apply NoDup_remove_2 in N. intros K. apply N. apply in_or_app; auto. }
    pose proof D as [Dc DQ DF DL [Dg1 Dg2] Dfl].
    assert (Vs : valid (f1 s)) by now apply ins_valid.
    destruct B as (B & BE & BP).
    destruct (lower_one_spec occ m1 v1 f1 q1 s n Hg A Dc Hs Hn Ht Vs B) as (m2 & v2 & f2 & q2 & E2 & H2 & (V2 & VE) & Hcase).
    assert (VE' : forall d, ins d -> vedge v2 d -> vedge v d \/ ~ is_obst f d).
    { intros k Kk Kd. destruct (VE k Kk Kd) as [K|K]; auto. right. intros O. apply K. now apply (nw_same _ _ F). }
    exists (m2, v2). split; auto. exists f2, q2. cbn [fst snd]. split; auto.
    split. { split; auto. split; auto. destruct Hcase as [(_ & -> & ->)|[(_ & _ & -> & ->)|(_ & _ & -> & ->)]]; auto. intros k Kk. now apply pending_upd; auto. }
    destruct Hcase as [(Hk & -> & ->)|[(NF & Hk & -> & ->)|(NF & Hk & -> & ->)]].
    + split; auto. split; auto. split; auto. intros k Hk'. apply in_app_or in Hk' as [|[<-|[]]]; auto. now left.
    + split; auto. split; auto. split; auto. intros k Hk'. apply in_app_or in Hk' as [|[<-|[]]]; auto. now right.
    + destruct (JL_lower s f1 q1 n D Hs Hn (not_eq_sym Hne) NF Hk) as (X & Y). cbn zeta in X, Y.
      set (x := Info _ _ _ _) in *. set (f2 := upd f1 n x) in *.
      assert (Hes : f2 n = x) by apply upd_same.
      assert (Heo : forall d, d <> n -> f2 d = f1 d) by (intros; now apply upd_other).
      split; auto. split; [now apply noworse_trans with f1|]. split; [|split].
      * intros k Hk'. unfold lowered, flagged. rewrite (Heo s Hne). apply in_app_or in Hk' as [Hk'|[<-|[]]].
        -- assert (k <> n) as Nk by (intros ->; auto). rewrite (Heo k Nk). now apply G.
        -- right. rewrite Hes. cbn. lia.
      * intros c Hc. destruct (cell_eq_dec c n) as [->|N]; [|rewrite (Heo c N); auto]. rewrite Hes. cbn. specialize (H n Hn). lia.
      * right. exists n. split; auto. rewrite Hes. cbn. specialize (H n Hn). lia.
  - exists f, q. cbn. split; auto. split; auto. split; auto. split; [apply noworse_refl|]. split; [intros n []|]. split; [intros; lia|auto].
  - cbn [app fst snd] in *. exists m', v', f', q'. split; auto. split; auto. split; auto. split; auto. split; auto. split; auto.
    intros n Hn Ht. apply G. now apply get_neighbors_In.
Qed.

Lemma JL_end s f q : JL s f q -> ins s -> (forall n, ins n -> touches s n -> lowered s f n) -> J f q.
Proof.
  intros [Hc HQ HF HL [G1 G2] Hfl] Hs Hlow. constructor; auto.
  - intros t u Ht Hu Htu _ Vt Ft Pt. destruct (cell_eq_dec t s) as [->|N].
    + now apply Hlow.
    + apply HL; auto. congruence.
  - intros H. exfalso. now apply (H _ G1).
Qed.

(** ** Removal of an entry *)
Section Step.
Variable top : nat -> list (cell * Z) -> nat.
Hypothesis Htop : forall k q, q <> [] -> (top k q < length q)%nat.
Variable occ : grid Z.
Hypothesis Hocc : occ_ok occ.

Lemma pop_ok m f q : holds m f q -> q <> [] ->
  exists s m' l r, pop top m = Ok (s, m') /\ holds m' f (l ++ r) /\ q = l ++ s :: r.
Proof.
  intros (Hw & Hr & Hc & Hf & Hq) Hne. unfold pop. set (k := top (d_clock m) (d_open m)).
  assert (Hk : (k < length (d_open m))%nat).
  { apply Htop. intros E. rewrite E in Hq. cbn in Hq. congruence. }
  unfold vget, verase. destruct (nth_error (d_open m) k) as [e|] eqn:E; [|apply nth_error_None in E; lia].
  replace (k <? length (d_open m))%nat with true by (symmetry; apply Nat.ltb_lt; lia). cbn [bind].
  pose proof (nth_error_split _ _ E) as (l & r & Eo & El).
  exists (fst e), (DMap (d_grid m) (firstn k (d_open m) ++ skipn (S k) (d_open m)) (S (d_clock m))), (map fst l), (map fst r).
  assert (Ek : firstn k (d_open m) ++ skipn (S k) (d_open m) = l ++ r).
  { rewrite Eo, <- El. rewrite firstn_app, Nat.sub_diag, firstn_all. cbn [firstn]. rewrite app_nil_r.
    rewrite skipn_app, (skipn_all2 l) by lia. replace (S (length l) - length l)%nat with 1%nat by lia. reflexivity. }
  split; [reflexivity|]. split.
  - unfold holds. cbn [d_grid d_open]. refine (conj Hw (conj Hr (conj Hc (conj Hf _)))). now rewrite Ek, map_app.
  - rewrite <- Hq, Eo, map_app. reflexivity.
Qed.

Lemma count_mid l s r c : count (l ++ s :: r) c = (count (l ++ r) c + if cell_eqb s c then 1 else 0)%nat.
Proof. change (s :: r) with ([s] ++ r). rewrite !count_app, count_one. lia. Qed.

Lemma In_mid {A} (l : list A) s r c : In c (l ++ s :: r) <-> c = s \/ In c (l ++ r).
Proof. rewrite !in_app_iff. cbn. intuition. Qed.

Definition all_cells : list cell :=
  flat_map (fun r => map (fun c => Cell (Z.of_nat r) (Z.of_nat c)) (seq 0 (Z.to_nat C))) (seq 0 (Z.to_nat R)).
Definition total (w : cell -> Z) : Z := fold_right (fun c a => w c + a) 0 all_cells.

Lemma all_cells_In c : In c all_cells <-> ins c.
Proof.
  unfold all_cells, ins, inside. rewrite in_flat_map. split.
  - intros (r & Hr & H). apply in_map_iff in H as (k & <- & Hk). apply in_seq in Hr, Hk. cbn. lia.
  - intros [Hr Hc]. exists (Z.to_nat (row c)). split; [apply in_seq; lia|]. apply in_map_iff. exists (Z.to_nat (col c)).
    split; [destruct c; cbn in *; f_equal; lia|apply in_seq; lia].
Qed.

Lemma total_le w w' : (forall c, ins c -> w' c <= w c) -> total w' <= total w.
Proof.
  intros H. unfold total. assert (K : forall c, In c all_cells -> w' c <= w c) by (intros c Hc; apply H; now apply all_cells_In).
  induction all_cells as [|a l IH]; cbn; [lia|]. pose proof (K a (or_introl eq_refl)). assert (forall c, In c l -> w' c <= w c) as K' by (intros; apply K; now right).
  specialize (IH K'). lia.
Qed.

Lemma total_lt w w' c : (forall c, ins c -> w' c <= w c) -> ins c -> w' c < w c -> total w' < total w.
Proof.
  intros H Hc Hlt. unfold total. assert (K : forall c, In c all_cells -> w' c <= w c) by (intros d Hd; apply H; now apply all_cells_In).
  apply all_cells_In in Hc. revert K Hc. induction all_cells as [|a l IH]; cbn; intros K Hc; [contradiction|].
  pose proof (K a (or_introl eq_refl)) as Ka.
  assert (K' : forall c, In c l -> w' c <= w c) by (intros; apply K; now right).
  destruct Hc as [->|Hc].
  - assert (fold_right (fun c a => w' c + a) 0 l <= fold_right (fun c a => w c + a) 0 l); [|lia].
    clear - K'. induction l as [|a l IH]; cbn; [lia|]. pose proof (K' a (or_introl eq_refl)).
    assert (forall c, In c l -> w' c <= w c) as K2 by (intros; apply K'; now right). specialize (IH K2). lia.
  - specialize (IH K' Hc). lia.
Qed.

Lemma total_nonneg w : (forall c, ins c -> 0 <= w c) -> 0 <= total w.
Proof.
  intros H. unfold total. assert (K : forall c, In c all_cells -> 0 <= w c) by (intros c Hc; apply H; now apply all_cells_In).
  induction all_cells as [|a l IH]; cbn; [lia|]. pose proof (K a (or_introl eq_refl)). assert (forall c, In c l -> 0 <= w c) as K' by (intros; apply K; now right).
  specialize (IH K'). lia.
Qed.

Definition TA f := total (wA f).
Definition TD (f : cell -> info) := total (fun c => i_dist (f c)).

(** Obstacles that were processed are not on an edge. *)
Definition apart (f : cell -> info) (q : list cell) (v : option dmap) : Prop :=
  forall c, ins c -> is_obst f c -> pending f q c \/ ~ vedge v c.

Lemma step_ok m v f q : holds m f q -> J f q -> vok v -> q <> [] ->
  exists m' v' f' q', update_step top occ (m, v) = Ok (m', v') /\ holds m' f' q' /\ J f' q' /\ vok v' /\ (noworse f f' /\ (apart f q v -> apart f' q' v')) /\
    (TA f' < TA f \/ TD f' < TD f \/ (TD f' <= TD f /\ (length q' < length q)%nat)).
Proof.
  intros Hm [Hc HQ HF HL HE] Hv Hne. unfold update_step.
  destruct (pop_ok m f q Hm Hne) as (s & m1 & l & r & Ep & Hm1 & Eq). rewrite Ep. cbn [bind].
  pose proof Hm1 as (_ & Hr1 & Hc1 & Hf1 & _).
  destruct (HQ s) as (Hs & Hqs). { rewrite Eq. apply In_mid. auto. }
  rewrite (Hf1 s Hs). cbn [bind].
  assert (Hcnt : forall c, c <> s -> count (l ++ r) c = count q c).
  { intros c N. rewrite Eq, count_mid. destruct (cell_eqb s c) eqn:E; [|lia]. apply cell_eqb_eq in E. congruence. }
  assert (Hcnts : S (count (l ++ r) s) = count q s).
  { rewrite Eq, count_mid, cell_eqb_refl. lia. }
  assert (HQ1 : Qi f (l ++ r)).
  { intros c Hi. apply HQ. rewrite Eq. apply In_mid. auto. }
  assert (Hlen : (length (l ++ r) < length q)%nat) by (rewrite Eq, !app_length; cbn; lia).
  assert (Hpe : forall c, c <> s -> pending f q c -> pending f (l ++ r) c).
  { intros c N [A B]. split; auto. rewrite Eq in B. apply In_mid in B as [|]; congruence. }
  rewrite Hr1, Hc1.
  destruct (i_proc (f s)) eqn:Epr; cbn [negb].
  2:{ (* nothing to process *)
    exists m1, v, f, (l ++ r). split; auto. split; auto. split; [|split; auto; split; [split; [apply noworse_refl|intros HA c Hi Hob; destruct (HA c Hi Hob) as [K|K]; auto; left; apply Hpe; auto; intros ->; destruct K; congruence]|right; right; split; [lia|auto]]].
    constructor; auto.
    - intros c Hi _ Hfl. destruct (HF c Hi ltac:(discriminate) Hfl) as (A & B & D).
      assert (c <> s) as N by congruence. rewrite (Hcnt c N). auto.
    - intros t u Ht Hu Htu Hx Vt Ft Pt. apply HL; auto. intros P. apply Pt. apply Hpe; auto. intros ->. destruct P. congruence. }
  destruct (i_raise (f s)) eqn:Era.
  - (* raise *)
    assert (HJR : JR s f (l ++ r)).
    { destruct (HF s Hs ltac:(discriminate) Era) as (A & B & D). constructor; auto.
      - intros c Hi Hx Hfl. assert (c <> s) as N by congruence. rewrite (Hcnt c N). apply HF; auto. discriminate.
      - intros t u Ht Hu Htu Hx Vt Ft Pt. apply HL; auto. intros P. apply Pt. apply Hpe; auto. intros ->. contradiction.
      - destruct (cell_is_valid (i_obst (f s))) eqn:V.
        + right. destruct (D V). split; auto. lia.
        + left. apply (cons_invalid s (f s) (Hc s Hs)). unfold valid. congruence. }
    destruct (raise_loop m1 f (l ++ r) s Hm1 HJR Hs) as (m2 & f2 & q2 & E2 & H2 & J2 & (N2 & P2) & R2). rewrite E2. cbn [bind].
    pose proof H2 as (_ & _ & _ & Hf2 & _). rewrite (Hf2 s Hs). cbn [bind].
    destruct (put_holds m2 f2 q2 s (set_raise (f2 s) false) H2 Hs) as (m3 & E3 & H3). rewrite E3. cbn [bind].
    destruct (JR_end s f2 q2 J2 Hs R2) as (J3 & N3 & L3).
    eexists m3, v, _, q2. split; auto. split; [exact H3|]. split; auto. split; auto. split; [split; [now apply noworse_trans with f2|]|].
    { intros HA c Hi Hob. set (f3 := upd f2 s (set_raise (f2 s) false)) in *.
      assert (Hp3 : forall d, pending f2 q2 d -> pending f3 q2 d).
      { intros d [A B]. split; auto. unfold f3. destruct (upd_cases f2 s (set_raise (f2 s) false) d) as [(-> & ->)|(_ & ->)]; auto. }
      assert (Ob2 : is_obst f2 c) by (apply (nw_same _ _ N3); auto).
      assert (Ob1 : is_obst f c) by (apply (nw_same _ _ N2); auto).
      destruct (HA c Hi Ob1) as [K|K]; auto. left. apply Hp3.
      destruct (cell_eq_dec c s) as [->|N]; [|apply P2; now apply Hpe].
      split; [apply (jr_proc _ _ _ J2)|]. apply count_In. destruct (jr_self _ _ _ J2) as [X|[_ X]]; auto.
      exfalso. apply no_cell_not_ins. rewrite <- X, Ob2. auto. }
    left. unfold TA. apply Z.lt_le_trans with (total (wA f2)).
    + apply total_lt with s; auto. apply (nw_work _ _ N3).
    + apply total_le. apply (nw_work _ _ N2).
  - rewrite (is_occupied_ok m1 f (l ++ r) (f s) Hm1) by apply (cons_valid s (f s) (Hc s Hs)). cbn [bind].
    destruct (cell_is_valid (i_obst (f s)) && cell_eqb (i_obst (f (i_obst (f s)))) (i_obst (f s))) eqn:Eo.
    + (* lower *)
      assert (Gs : good f s).
      { apply andb_true_iff in Eo as [A B]. apply cell_eqb_eq in B. split; auto. now apply (cons_valid s (f s) (Hc s Hs)). }
      assert (exists v1, match v with None => Ok None | Some w => rmap Some (unset_cell w s) end = Ok v1 /\ vok v1 /\
        forall d, ins d -> vedge v1 d -> d <> s /\ vedge v d) as (v1 & Ev & Hv1 & Hve).
      { destruct v as [w|]; [|exists None; split; auto; split; auto; intros d _ []]. destruct (unset_vok w s Hv Hs) as (w' & E & V & Q). exists (Some w'). rewrite E. auto. }
      rewrite Ev. cbn [bind].
      destruct (put_holds m1 f (l ++ r) s (set_proc (f s) false) Hm1 Hs) as (m2 & E2 & H2). rewrite E2. cbn [bind].
      set (f1 := upd f s (set_proc (f s) false)) in *.
      assert (Heq : forall c, i_dist (f1 c) = i_dist (f c) /\ i_obst (f1 c) = i_obst (f c) /\ i_raise (f1 c) = i_raise (f c)).
      { intros c. unfold f1. destruct (upd_cases f s (set_proc (f s) false) c) as [(-> & ->)|(_ & ->)]; auto. }
      assert (Heo : forall c, c <> s -> f1 c = f c) by (intros; now apply upd_other).
      pose proof (same_obst_proc f s false) as Hsame. fold f1 in Hsame.
      assert (HJL : JL s f1 (l ++ r)).
      { constructor.
        - intros c Hi. specialize (Hc c Hi). unfold cons1 in *. destruct (Heq c) as (-> & -> & _). auto.
        - intros c Hi. destruct (HQ1 c Hi) as (A & B). split; auto. destruct (Heq c) as (_ & E & _).
          destruct B as [B|B]; [left; congruence|right; now apply (good_same f f1 c)].
        - intros c Hi _ Hfl. assert (c <> s) as N. { intros ->. unfold flagged in Hfl. destruct (Heq s) as (_ & _ & E). congruence. }
          unfold flagged in Hfl. rewrite (Heo c N), (Hcnt c N) in *. apply HF; auto. discriminate.
        - intros t u Ht Hu Htu Hx Vt Ft Pt. assert (t <> s) as N by congruence. unfold flagged in *. rewrite (Heo t N) in *.
          destruct (Heq u) as (-> & _ & ->). apply HL; auto; [discriminate|]. intros P. apply Pt. unfold pending. rewrite (Heo t N). apply Hpe; auto.
        - apply (good_same f f1 s); auto. apply Heq.
        - unfold flagged. destruct (Heq s) as (_ & _ & ->). congruence. }
      destruct (lower_loop occ m2 v1 f1 (l ++ r) s Hocc H2 HJL Hs Hv1) as (m3 & v3 & f3 & q3 & E3 & H3 & (V3 & VE3 & PE3) & J3 & N3 & W3 & D3 & P3).
      exists m3, v3, f3, q3. split; auto. split; auto. split; [now apply JL_end with s|]. split; auto.
      split; [split; [apply noworse_trans with f1; auto; now apply noworse_proc|]|].
      { intros HA c Hi Hob. assert (Ob1 : is_obst f1 c) by (apply (nw_same _ _ N3); auto).
        assert (Ob0 : is_obst f c) by (apply Hsame; auto).
        destruct (cell_eq_dec c s) as [->|N].
        - right. intros K. destruct (VE3 s Hs K) as [K1|K1]; auto. destruct (Hve s Hs K1) as [K2 _]. congruence.
        - destruct (HA c Hi Ob0) as [K|K].
          + left. apply PE3. apply (Hpe c N) in K as [K1 K2]. split; auto. now rewrite (Heo c N).
          + right. intros K1. destruct (VE3 c Hi K1) as [K2|K2]; auto. destruct (Hve c Hi K2). auto. }
      right.
      assert (TD f3 <= TD f) as L1.
      { apply total_le. intros c Hi. specialize (D3 c Hi). destruct (Heq c) as (E & _). rewrite E in D3. auto. }
      destruct P3 as [->|(c & Hi & Hlt)]; [right; auto|]. left. apply total_lt with c; auto.
      * intros d Hd. specialize (D3 d Hd). destruct (Heq d) as (E & _). rewrite E in D3. auto.
      * destruct (Heq c) as (E & _). now rewrite E in Hlt.
    + (* the cell is empty *)
      assert (Hnv : ~ valid (f s)).
      { intros V. destruct Hqs as [K|[K1 K2]]; [unfold valid in V; rewrite K in V; discriminate V|].
        unfold valid in V. rewrite V in Eo. cbn in Eo. unfold is_obst in K2. rewrite K2, cell_eqb_refl in Eo. discriminate Eo. }
      exists m1, v, f, (l ++ r). split; auto. split; auto. split; [|split; auto; split; [split; [apply noworse_refl|intros HA c Hi Hob; destruct (HA c Hi Hob) as [K|K]; auto; left; apply Hpe; auto; intros ->; apply Hnv; unfold valid; rewrite Hob; now apply ins_valid]|right; right; split; [lia|auto]]].
      constructor; auto.
      * intros c Hi _ Hfl. assert (c <> s) as N by (intros ->; unfold flagged in Hfl; congruence). rewrite (Hcnt c N). apply HF; auto. discriminate.
      * intros t u Ht Hu Htu Hx Vt Ft Pt. apply HL; auto. intros P. apply Pt. apply Hpe; auto. intros ->. contradiction.
Qed.

Lemma update_nonempty fuel st : d_open (fst st) <> [] ->
  update top occ (S fuel) st = do st1 <- update_step top occ st; update top occ fuel st1.
Proof. intros H. cbn [update]. destruct (d_open (fst st)); [contradiction|reflexivity]. Qed.
Lemma update_empty fuel st : d_open (fst st) = [] -> update top occ fuel st = Ok st.
Proof. intros H. destruct fuel; cbn [update]; now rewrite H. Qed.

Lemma update_terminates_aux : forall a d k m v f q, Z.to_nat (TA f) = a -> Z.to_nat (TD f) = d -> length q = k ->
  holds m f q -> J f q -> vok v ->
  exists fuel0 m' v' f', (forall fuel, (fuel0 <= fuel)%nat -> update top occ fuel (m, v) = Ok (m', v')) /\
    holds m' f' [] /\ J f' [] /\ vok v' /\ noworse f f' /\ (apart f q v -> apart f' [] v').
Proof.
  intros a. induction a as [a IHa] using lt_wf_ind. intros d. induction d as [d IHd] using lt_wf_ind.
  intros k. induction k as [k IHk] using lt_wf_ind. intros m v f q Ea Ed Ek Hm HJ Hv.
  destruct q as [|c0 q0] eqn:Eq.
  { exists O, m, v, f. split; [|split; [exact Hm|split; [exact HJ|split; [exact Hv|split; [apply noworse_refl|auto]]]]].
    intros fuel _. apply update_empty. cbn. destruct Hm as (_ & _ & _ & _ & E). now apply map_eq_nil in E. }
  rewrite <- Eq in *. assert (Hne : q <> []) by (rewrite Eq; discriminate).
  destruct (step_ok m v f q Hm HJ Hv Hne) as (m1 & v1 & f1 & q1 & E1 & H1 & J1 & V1 & (N1 & A1) & P1).
  assert (Hopen : d_open (fst (m, v)) <> []).
  { cbn. destruct Hm as (_ & _ & _ & _ & E). intros K. rewrite K in E. cbn in E. congruence. }
  assert (TA f1 <= TA f) as LA by (apply total_le; apply (nw_work _ _ N1)).
  assert (0 <= TA f1) as PA by (apply total_nonneg; intros; apply wA_nonneg).
  assert (0 <= TD f1) as PD by (apply total_nonneg; intros c Hc; apply (cons_dist c); auto; now apply (j_cons _ _ J1)).
  assert (IH : exists fuel0 m' v' f', (forall fuel, (fuel0 <= fuel)%nat -> update top occ fuel (m1, v1) = Ok (m', v')) /\
    holds m' f' [] /\ J f' [] /\ vok v' /\ noworse f1 f' /\ (apart f1 q1 v1 -> apart f' [] v')).
  { destruct (Z.eq_dec (TA f1) (TA f)) as [QA|QA].
    - destruct (Z.eq_dec (TD f1) (TD f)) as [QD|QD].
      + apply (IHk (length q1)) with (f := f1) (q := q1); auto; lia.
      + apply (IHd (Z.to_nat (TD f1))) with (k := length q1) (f := f1) (q := q1); auto; lia.
    - apply (IHa (Z.to_nat (TA f1))) with (d := Z.to_nat (TD f1)) (k := length q1) (f := f1) (q := q1); auto; lia. }
  destruct IH as (fuel0 & m' & v' & f' & Hu & A & B & D & F & G).
  exists (S fuel0), m', v', f'. split; [|split; [exact A|split; [exact B|split; [exact D|split; [now apply noworse_trans with f1|auto]]]]].
  intros fuel Hfuel. destruct fuel as [|fuel]; [lia|]. rewrite update_nonempty by auto. rewrite E1. cbn [bind]. apply Hu. lia.
Qed.

Lemma update_terminates m v f q : holds m f q -> J f q -> vok v ->
  exists fuel0 m' v' f', (forall fuel, (fuel0 <= fuel)%nat -> update top occ fuel (m, v) = Ok (m', v')) /\
    holds m' f' [] /\ J f' [] /\ vok v' /\ noworse f f' /\ (apart f q v -> apart f' [] v').
Proof. intros. eapply update_terminates_aux; eauto. Qed.

End Step.

(** ** Histories *)
Lemma J_end_JB f : J f [] -> JB f [].
Proof. intros H. split; auto. intros c []. Qed.

(** Every cell with an obstacle refers to an existing one. *)
Definition NS (f : cell -> info) : Prop := forall c, ins c -> valid (f c) -> good f c.

Lemma NS_noworse f f' : NS f -> noworse f f' -> NS f'.
Proof.
  intros H [A B D] c Hc V. destruct (D c Hc V) as [E|G]; auto. apply (good_same f f' c); auto. apply H; auto.
  unfold valid in *. now rewrite <- E.
Qed.

Record ginv (st : gst) (made : bool) (obst : cell -> bool) (clean tame : bool) (f : cell -> info) (q : list cell) : Prop := {
  gi_holds : holds (g_obs st) f q;
  gi_jb : JB f q;
  gi_vok : vok (g_vor st);
  gi_made : made = true -> g_vor st <> None;
  gi_occ : occ_ok (g_occ st);
  gi_obst : forall c, ins c -> (is_obst f c <-> obst c = true);
  gi_clean : clean = true -> NS f;
  gi_apart : tame = true -> apart f q (g_vor st) }.

Lemma new_ok : exists m, dm_new R C = Ok m /\ holds m (fun _ => Info inf no_cell false false) [] /\ JB (fun _ => Info inf no_cell false false) [].
Proof.
  unfold dm_new. destruct HRC as (HR & HC & _).
  destruct (proj2 (grid_new_iff R C (Info inf no_cell false false)) (conj HR HC)) as [g Eg]. rewrite Eg. cbn [bind].
  pose proof (grid_new_wf _ _ _ _ Eg) as (Hw & Hr & Hc).
  eexists. split; [reflexivity|]. split.
  - refine (conj Hw (conj Hr (conj Hc (conj _ eq_refl)))). intros c Hi. unfold cur. cbn. now apply (grid_new_get R C).
  - apply J_end_JB. constructor.
    + intros c Hi. left. auto.
    + intros c [].
    + intros c Hi _ F. discriminate F.
    + intros s n _ _ _ _ V. discriminate V.
    + intros _. exists (Cell 0 0). split; auto. unfold ins, inside. cbn. lia.
Qed.


Section Run.
Variables top topv : nat -> list (cell * Z) -> nat.
Hypothesis Htop : forall k q, q <> [] -> (top k q < length q)%nat.
Hypothesis Htopv : forall k q, q <> [] -> (topv k q < length q)%nat.

Lemma voronoi_kept occ fuel : forall m w m' v', update top occ fuel (m, Some w) = Ok (m', v') -> v' <> None.
Proof.
  induction fuel as [|fuel IH]; intros m w0 m1 v1; cbn [update fst].
  - destruct (d_open m); [congruence|discriminate].
  - destruct (d_open m); [congruence|]. destruct (update_step top occ (m, Some w0)) as [[m2 v2]| | |] eqn:Es; try discriminate. cbn [bind].
    intros Hup. assert (v2 <> None) as Hv2.
    { clear - Es. unfold update_step in Es. destruct (pop top m) as [[s m3]| | |]; try discriminate. cbn [bind] in Es.
      destruct (cur m3 s) as [i| | |]; try discriminate. cbn [bind] in Es.
      destruct (negb (i_proc i)); [congruence|]. destruct (i_raise i).
      - destruct (fold_res raise_one _ _) as [m4| | |]; try discriminate. cbn [bind] in Es.
        destruct (cur m4 s) as [i1| | |]; try discriminate. cbn [bind] in Es. destruct (put m4 s _) as [m5| | |]; try discriminate. cbn [bind] in Es. congruence.
      - destruct (is_occupied m3 (i_obst i)) as [o| | |]; try discriminate. cbn [bind] in Es. destruct o; [|congruence].
        destruct (unset_cell w0 s) as [w1| | |]; try discriminate. cbn [bind rmap] in Es. destruct (put m3 s _) as [m4| | |]; try discriminate. cbn [bind] in Es.
        revert m4 w1 Es. generalize (get_neighbors (rows (d_grid m3)) (columns (d_grid m3)) s) as ns.
        induction ns as [|n ns IH]; intros m4 w1; cbn [fold_res]; [congruence|]. unfold lower_one at 1.
        destruct (cur m4 n) as [jn| | |]; try discriminate. cbn [bind]. destruct (i_raise jn); cbn [bind]; [apply IH|].
        destruct (cur m4 s) as [is| | |]; try discriminate. cbn [bind]. destruct (squared_distance _ _) as [d| | |]; try discriminate. cbn [bind].
        destruct (d <? i_dist jn).
        + destruct (put m4 n _) as [m5| | |]; try discriminate. cbn [bind]. apply IH.
        + destruct (check_voro _ _ _ _ _) as [w2| | |]; try discriminate. cbn [bind]. apply IH. }
    destruct v2 as [w2|]; [|contradiction]. eapply IH; eauto.
Qed.

Lemma g_step_ok st made obst clean tame f q o : ginv st made obst clean tame f q -> well_used R C made [o] ->
  exists fuel0 st' f' q', (forall fuel, (fuel0 <= fuel)%nat -> g_step top topv fuel st o = Ok st') /\
    ginv st' (match o with GVoronoi => true | _ => made end)
      (fun c => obstacle_after (obst c) [o] c) (clean && negb (is_unset o)) (tame && negb (is_edge o)) f' q' /\
    (o = GUpdateObstacles -> q' = []) /\
    (o = GUpdateVoronoi -> f' = f /\ q' = q /\ exists w fv, g_vor st' = Some w /\ holds w fv [] /\ J fv []).
Proof.
  intros [Hh Hj Hv Hm Ho Hobs Hcl Hap] [Hu _].
  destruct o as [c|c| |c|c|g| |]; cbn [g_step obstacle_after is_unset is_edge negb]; rewrite ?andb_true_r, ?andb_false_r.
  - destruct (set_ok _ f q c Hh Hj Hu) as (m & E & A & B). exists O. rewrite E. cbn [bind]. eexists _, _, _. split; [reflexivity|].
    split; [|split; discriminate]. constructor; cbn; eauto.
    + intros d Hd. unfold is_obst. destruct (upd_cases f c (Info 0 c (i_raise (f c)) true) d) as [(-> & ->)|(N & ->)].
      * rewrite cell_eqb_refl. cbn. tauto.
      * destruct (cell_eqb c d) eqn:K; [apply cell_eqb_eq in K; congruence|]. apply Hobs; auto.
    + intros K d Hd V. specialize (Hcl K). destruct (cell_eq_dec d c) as [->|N].
      * unfold good, is_obst. rewrite upd_same. cbn. rewrite upd_same. auto.
      * unfold valid, good, is_obst in *. rewrite (upd_other _ _ _ d N) in *. destruct (Hcl d Hd V) as [A1 A2]. split; auto.
        destruct (upd_cases f c (Info 0 c (i_raise (f c)) true) (i_obst (f d))) as [(E1 & ->)|(_ & ->)]; auto.
    + intros K d Hd Od. specialize (Hap K). destruct (cell_eq_dec d c) as [->|N].
      * left. split; [now rewrite upd_same|apply in_or_app; right; now left].
      * unfold is_obst in Od. rewrite (upd_other _ _ _ d N) in Od. destruct (Hap d Hd Od) as [P|P]; auto. left. now apply pending_upd.
  - destruct (unset_ok _ f q c Hh Hj Hu) as (m & E & A & B). exists O. rewrite E. cbn [bind]. eexists _, _, _. split; [reflexivity|].
    split; [|split; discriminate]. constructor; cbn; eauto; [|discriminate|].
    + intros d Hd. unfold is_obst. destruct (upd_cases f c (Info inf no_cell true true) d) as [(-> & ->)|(N & ->)].
      * rewrite cell_eqb_refl. cbn. split; [|discriminate]. intros K. exfalso. apply no_cell_not_ins. now rewrite K.
      * destruct (cell_eqb c d) eqn:K; [apply cell_eqb_eq in K; congruence|]. apply Hobs; auto.
    + intros K d Hd Od. specialize (Hap K). destruct (cell_eq_dec d c) as [->|N].
      * exfalso. unfold is_obst in Od. rewrite upd_same in Od. cbn in Od. apply no_cell_not_ins. now rewrite Od.
      * unfold is_obst in Od. rewrite (upd_other _ _ _ d N) in Od. destruct (Hap d Hd Od) as [P|P]; auto. left. now apply pending_upd.
  - exists O. destruct (g_vor st) as [w|] eqn:Ew.
    + exists st, f, q. split; auto. split; [|split; discriminate]. constructor; auto; rewrite Ew; auto. discriminate.
    + pose proof Hh as (_ & Hr & Hc & _). rewrite Hr, Hc. destruct new_ok as (w & E & A & B). rewrite E. cbn [bind].
      eexists _, f, q. split; [reflexivity|]. split; [|split; discriminate]. constructor; cbn; auto; [eauto|discriminate|].
      intros K d Hd Od. right. intros (i & Ei & Eo). destruct A as (_ & _ & _ & A & _). rewrite (A d Hd) in Ei. injection Ei as <-.
      cbn in Eo. apply no_cell_not_ins. now rewrite Eo.
  - destruct Hu as [Hu Hc]. specialize (Hm Hu). unfold on_voronoi. destruct (g_vor st) as [w|] eqn:Ew; [|contradiction].
    destruct (set_vok w c Hv Hc) as (w' & E & V & _). exists O. rewrite E. cbn [bind]. eexists _, f, q. split; [reflexivity|].
    split; [|split; discriminate]. constructor; cbn; auto; discriminate.
  - destruct Hu as [Hu Hc]. specialize (Hm Hu). unfold on_voronoi. destruct (g_vor st) as [w|] eqn:Ew; [|contradiction].
    destruct (unset_vok w c Hv Hc) as (w' & E & V & _). exists O. rewrite E. cbn [bind]. eexists _, f, q. split; [reflexivity|].
    split; [|split; discriminate]. constructor; cbn; auto; discriminate.
  - exists O. eexists _, f, q. split; [reflexivity|]. split; [|split; discriminate]. constructor; cbn; auto.
    destruct Hu as (A & B & D). destruct HRC as (HR & HC & _). split; auto. unfold gwf. rewrite A, B. lia.
  - destruct (update_terminates top Htop (g_occ st) Ho (g_obs st) (g_vor st) f q Hh (jb_j _ _ Hj) Hv) as (fuel0 & m' & v' & f' & E & A & B & D & N & HA).
    exists fuel0. eexists _, f', []. split. { intros fuel Hf. rewrite (E fuel Hf). cbn [bind]. reflexivity. }
    split; [|split; [auto|discriminate]]. constructor; cbn; auto.
    + now apply J_end_JB.
    + intros K. specialize (Hm K). destruct (g_vor st) as [w|]; [|contradiction]. apply (voronoi_kept (g_occ st) fuel0 (g_obs st) w m'). apply E. auto.
    + intros c Hc. rewrite <- (Hobs c Hc). symmetry. apply (nw_same _ _ N); auto.
    + intros K. apply (NS_noworse f f'); auto.
  - specialize (Hm Hu). unfold on_voronoi. destruct (g_vor st) as [w|] eqn:Ew; [|contradiction].
    destruct Hv as (fv & qv & Hv1 & Hv2).
    destruct (update_terminates topv Htopv (g_occ st) Ho w None fv qv Hv1 (jb_j _ _ Hv2) I) as (fuel0 & m' & v' & f' & E & A & B & D & N & _).
    exists fuel0. eexists _, f, q. split. { intros fuel Hf. rewrite (E fuel Hf). cbn [bind rmap]. reflexivity. }
    split; [|split; [discriminate|]].
    + constructor; cbn; auto; [|discriminate|].
      * exists f', []. split; auto. now apply J_end_JB.
      * intros K c Hc Oc. destruct (Hap K c Hc Oc) as [P|P]; auto. right. intros (i & Ei & Eo). apply P. exists (fv c).
        destruct A as (_ & _ & _ & A & _). rewrite (A c Hc) in Ei. injection Ei as <-.
        destruct Hv1 as (_ & _ & _ & Hv1 & _). split; auto. now apply (nw_same _ _ N).
    + intros _. split; auto. split; auto. cbn. eauto.
Qed.

Lemma g_run_ok ops : forall rest st made obst clean tame f q, ginv st made obst clean tame f q -> well_used R C made (ops ++ rest) ->
  exists fuel0 st' f' q' made', (forall fuel, (fuel0 <= fuel)%nat -> g_run top topv fuel st ops = Ok st') /\
    ginv st' made' (fun c => obstacle_after (obst c) ops c) (clean && negb (existsb is_unset ops)) (tame && negb (existsb is_edge ops)) f' q' /\
    well_used R C made' rest.
Proof.
  induction ops as [|o ops IH]; intros rest st made obst clean tame f q Hg Hu.
  - exists O, st, f, q, made. split; [reflexivity|]. cbn. rewrite !andb_true_r. auto.
  - cbn [app] in Hu. destruct (g_step_ok st made obst clean tame f q o Hg (conj (proj1 Hu) I)) as (k1 & st1 & f1 & q1 & E1 & G1 & _).
    destruct (IH rest _ _ _ _ _ _ _ G1 (proj2 Hu)) as (k2 & st2 & f2 & q2 & made2 & E2 & G2 & U2).
    exists (Nat.max k1 k2), st2, f2, q2, made2. split; [|split; auto].
    + intros fuel Hf. unfold g_run. cbn [fold_res]. rewrite E1 by lia. cbn [bind]. apply E2. lia.
    + cbn [existsb]. rewrite !negb_orb, !andb_assoc.
      destruct G2 as [A B D E F G H K]. constructor; auto. intros c Hc. rewrite (G c Hc). destruct o; cbn [obstacle_after]; tauto.
Qed.

Lemma g_run_app fuel st a b : g_run top topv fuel st (a ++ b) = do st1 <- g_run top topv fuel st a; g_run top topv fuel st1 b.
Proof.
  unfold g_run. revert st. induction a as [|o a IH]; intros st; cbn; auto. destruct (g_step _ _ _ _ _); cbn; auto.
Qed.

Lemma g_new_ok occ : occ_ok occ -> exists st, g_new occ = Ok st /\ ginv st false (fun _ => false) true true (fun _ => Info inf no_cell false false) [].
Proof.
  intros Ho. destruct new_ok as (m & E & A & B). unfold g_new. pose proof Ho as (_ & Hr & Hc). rewrite Hr, Hc, E. cbn [bind].
  eexists. split; [reflexivity|].
  assert (K : forall c, ins c -> ~ is_obst (fun _ => Info inf no_cell false false) c).
  { intros c Hi K. unfold is_obst in K. cbn in K. apply no_cell_not_ins. now rewrite K. }
  constructor; cbn; auto; try discriminate.
  - intros c Hi. split; [|discriminate]. intros X. now apply K in X.
  - intros _ c Hi X. now apply K in X.
Qed.

(** A whole history. *)
Lemma history occ ops rest : occ_ok occ -> well_used R C false (ops ++ rest) ->
  exists fuel0 st0 st f q made, g_new occ = Ok st0 /\ (forall fuel, (fuel0 <= fuel)%nat -> g_run top topv fuel st0 ops = Ok st) /\
    ginv st made (fun c => obstacle_after false ops c) (negb (existsb is_unset ops)) (negb (existsb is_edge ops)) f q /\
    well_used R C made rest.
Proof.
  intros Ho Hu. destruct (g_new_ok occ Ho) as (st0 & E0 & G0).
  destruct (g_run_ok ops rest st0 _ _ _ _ _ _ G0 Hu) as (k & st & f & q & made & E & G & U). exists k, st0, st, f, q, made. auto.
Qed.

Lemma history_updated occ ops rest : occ_ok occ -> well_used R C false (ops ++ GUpdateObstacles :: rest) ->
  exists fuel0 st0 st f made, g_new occ = Ok st0 /\
    (forall fuel, (fuel0 <= fuel)%nat -> g_run top topv fuel st0 (ops ++ [GUpdateObstacles]) = Ok st) /\
    ginv st made (fun c => obstacle_after false ops c) (negb (existsb is_unset ops)) (negb (existsb is_edge ops)) f [] /\
    well_used R C made rest.
Proof.
  intros Ho Hu. destruct (history occ ops _ Ho Hu) as (k & st0 & st & f & q & made & E0 & E & G & [_ U]).
  destruct (g_step_ok st made _ _ _ f q GUpdateObstacles G (conj I I)) as (k1 & st1 & f1 & q1 & E1 & G1 & Hq & _).
  rewrite (Hq eq_refl) in G1. exists (Nat.max k k1), st0, st1, f1, made. split; auto. split; [|split; auto].
  - intros fuel Hf. rewrite g_run_app, E by lia. cbn [bind]. unfold g_run. cbn [fold_res]. rewrite E1 by lia. reflexivity.
  - cbn [is_unset is_edge negb] in G1. rewrite !andb_true_r in G1. exact G1.
Qed.

Lemma history_voronoi occ ops : occ_ok occ -> well_used R C false (ops ++ [GUpdateVoronoi]) ->
  exists fuel0 st0 st w f, g_new occ = Ok st0 /\
    (forall fuel, (fuel0 <= fuel)%nat -> g_run top topv fuel st0 (ops ++ [GUpdateVoronoi]) = Ok st) /\
    g_vor st = Some w /\ holds w f [] /\ J f [].
Proof.
  intros Ho Hu. destruct (history occ ops _ Ho Hu) as (k & st0 & st & f & q & made & E0 & E & G & U).
  destruct (g_step_ok st made _ _ _ f q GUpdateVoronoi G U) as (k1 & st1 & f1 & q1 & E1 & G1 & _ & Hv).
  destruct (Hv eq_refl) as (_ & _ & w & fv & A & B & D). exists (Nat.max k k1), st0, st1, w, fv. split; auto. split; auto.
  intros fuel Hf. rewrite g_run_app, E by lia. cbn [bind]. unfold g_run. cbn [fold_res]. rewrite E1 by lia. reflexivity.
Qed.

(** The update of the diagram: obstacles, then edges. *)
Lemma history_diagram occ ops : occ_ok occ -> well_used R C false (ops ++ [GUpdateObstacles; GUpdateVoronoi]) ->
  exists fuel0 st0 st f w fv, g_new occ = Ok st0 /\
    (forall fuel, (fuel0 <= fuel)%nat -> g_run top topv fuel st0 (ops ++ [GUpdateObstacles; GUpdateVoronoi]) = Ok st) /\
    holds (g_obs st) f [] /\ J f [] /\ g_vor st = Some w /\ holds w fv [] /\ J fv [] /\
    (existsb is_edge ops = false -> apart f [] (Some w)) /\
    (forall c, ins c -> (is_obst f c <-> obstacle_after false ops c = true)).
Proof.
  intros Ho Hu. destruct (history_updated occ ops _ Ho Hu) as (k & st0 & st & f & made & E0 & E & G & U).
  destruct (g_step_ok st made _ _ _ f [] GUpdateVoronoi G U) as (k1 & st1 & f1 & q1 & E1 & G1 & _ & Hv).
  destruct (Hv eq_refl) as (-> & -> & w & fv & A & B & D). destruct G1 as [X1 X2 X3 X4 X5 X6 X7 X8].
  exists (Nat.max k k1), st0, st1, f, w, fv. split; auto. split.
  { intros fuel Hf. change [GUpdateObstacles; GUpdateVoronoi] with ([GUpdateObstacles] ++ [GUpdateVoronoi]). rewrite app_assoc, g_run_app, E by lia.
    cbn [bind]. unfold g_run. cbn [fold_res]. rewrite E1 by lia. reflexivity. }
  split; auto. split; [apply X2|]. split; auto. split; auto. split; auto. split.
  - intros He. rewrite A in X8. apply X8. rewrite He. reflexivity.
  - intros c Hc. rewrite (X6 c Hc). cbn [obstacle_after]. tauto.
Qed.

End Run.

(** ** After an update *)
Lemma settled_flags f : J f [] -> forall c, ins c -> ~ flagged f c.
Proof. intros HJ c Hc F. destruct (j_f _ _ HJ c Hc ltac:(discriminate) F) as (_ & B & _). cbn in B. lia. Qed.

Lemma settled_local f : J f [] -> forall s n, ins s -> ins n -> touches s n -> valid (f s) ->
  valid (f n) /\ i_dist (f n) <= sqd (i_obst (f s)) n.
Proof.
  intros HJ s n Hs Hn Ht V.
  destruct (j_l _ _ HJ s n Hs Hn Ht ltac:(discriminate) V (settled_flags f HJ s Hs)) as [F|L].
  - intros [_ []].
  - exfalso. now apply (settled_flags f HJ n Hn).
  - split; auto. pose proof (proj1 (cons_valid s (f s) (j_cons _ _ HJ s Hs)) V) as Os.
    pose proof (sqd_bound _ n Os Hn). destruct (j_cons _ _ HJ n Hn) as [(_ & D)|(D & _)]; [lia|now apply ins_valid].
Qed.

(** A property that spreads to touching cells holds of the whole map. *)
Lemma connected (P : cell -> Prop) : (forall s n, ins s -> ins n -> touches s n -> P s -> P n) ->
  forall a b, ins a -> ins b -> P a -> P b.
Proof.
  intros Hstep a b Ha Hb.
  assert (K : forall k a, ins a -> Z.max (Z.abs (row a - row b)) (Z.abs (col a - col b)) = Z.of_nat k -> P a -> P b).
  { induction k as [|k IH]; intros x Hx Hk Px.
    - replace b with x; auto. destruct x, b; cbn in *. f_equal; lia.
    - set (y := Cell (row x + Z.sgn (row b - row x)) (col x + Z.sgn (col b - col x))).
      unfold ins, inside in *. apply (IH y); unfold y, touches in *; cbn; [lia|lia|].
      apply (Hstep x); unfold touches; cbn; auto; lia. }
  apply (K (Z.to_nat (Z.max (Z.abs (row a - row b)) (Z.abs (col a - col b))))); auto. lia.
Qed.

Lemma settled_all f : J f [] -> (exists o, ins o /\ valid (f o)) -> forall c, ins c -> valid (f c).
Proof.
  intros HJ (o & Ho & V) c Hc. apply (connected (fun c => valid (f c))) with o; auto.
  intros s n Hs Hn Ht Vs. now apply (settled_local f HJ s n).
Qed.

Lemma settled_none f : J f [] -> (forall c, ins c -> ~ is_obst f c) -> forall c, ins c -> i_obst (f c) = no_cell /\ i_dist (f c) = inf.
Proof.
  intros HJ Hno c Hc. apply (cons_invalid c); [now apply (j_cons _ _ HJ)|]. intros V.
  destruct (j_e _ _ HJ Hno) as (d & Hd & Ed). pose proof (settled_all f HJ (ex_intro _ c (conj Hc V)) d Hd) as Vd.
  unfold valid in Vd. rewrite Ed in Vd. discriminate Vd.
Qed.

End Core.
