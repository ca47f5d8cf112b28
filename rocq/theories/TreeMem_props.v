(** C102: the tree of states of the random planners stays consistent whatever the sequence of calls. *)
From Coq Require Import Reals.
From Verif Require Import Base Frontier_spec Node_model Node_spec Node_proofs TreeMem_model TreeMem_spec TreeMem_proofs.

Section Props.
Context {V : Type} (eqv : V -> V -> bool) (knn1 : list V -> V -> nat) (knn : list V -> V -> nat -> list nat).

(** After any sequence of legitimate calls the map, the k-d tree and the nodes agree, and any further legitimate call returns: no dangling or
    null pointer is followed and no assertion fails. *)
Theorem C102_consistent :
  equivalence V eqv -> knn_in_range knn1 knn ->
  forall t, treached eqv knn1 knn t ->
  coherent eqv t /\ forall x, tallowed t x -> exists t' r, tstep eqv knn1 knn t x = Ok (t', r).
Proof.
  intros He Hk t Ht. pose proof (reached_coherent eqv knn1 knn He Hk t Ht) as H. split; auto. intros x Hx.
  destruct (step_ok eqv knn1 knn He Hk t x H Hx) as (t' & r & E & _). eauto.
Qed.

(** [Extend] returns the node that already has the state, leaving the tree as it is, or adds one node with this state below the given source, or
    below the nearest node when none is given, and changes no other. *)
Theorem C102_extend :
  equivalence V eqv -> knn_in_range knn1 knn ->
  forall t target source, treached eqv knn1 knn t -> tallowed t (OExtend target source) ->
  exists t' n, tstep eqv knn1 knn t (OExtend target source) = Ok (t', RNode (Some n)) /\
  ((exists w, node_at t n w /\ eqv w target = true /\ t' = t) \/
   ((forall m w, node_at t m w -> eqv w target = false) /\ ~ In n (t_alive t) /\ t_alive t' = t_alive t ++ [n] /\ node_at t' n target /\
    t_root t' = t_root t /\ kept t t' /\
    exists s, In s (t_alive t) /\ h_parent (t_heap t') n = Some s /\
      match source with Some s' => s = s' | None => tstep eqv knn1 knn t (ONearest target) = Ok (t, RNode (Some s)) end)).
Proof.
  intros He Hk t target source Ht Ha. pose proof (reached_coherent eqv knn1 knn He Hk t Ht) as H.
  destruct (extend_ok eqv knn1 knn He Hk t target source H Ha) as (t' & n & E & Hc & D). exists t', n. cbn [tstep]. rewrite E. split; auto.
  destruct D as [D|(D1 & D2 & D3 & D4 & D5 & D6 & s & S1 & S2 & S3)]; [now left|right]. do 3 (split; auto). split.
  - split; auto. rewrite D2. apply in_or_app. right. now left.
  - do 2 (split; auto). exists s. do 2 (split; auto). destruct source; auto. now rewrite S3.
Qed.

(** With flann's exact search, [GetNearestNode] returns a node of the tree and none is nearer, and [GetNearestNodes] returns as many distinct nodes
    as asked for, or all, none left out being nearer than one returned. The tree is left as it is. *)
Theorem C102_nearest :
  forall dist : V -> V -> R, equivalence V eqv -> knn_in_range knn1 knn -> knn_exact knn1 knn dist ->
  forall t q, treached eqv knn1 knn t ->
  (t_root t <> None -> exists n v, tstep eqv knn1 knn t (ONearest q) = Ok (t, RNode (Some n)) /\ node_at t n v /\
     forall m w, node_at t m w -> (dist v q <= dist w q)%R) /\
  (forall nn, nn = 0%nat \/ t_root t <> None -> exists ns, tstep eqv knn1 knn t (ONearests q nn) = Ok (t, RNodes (map Some ns)) /\
     NoDup ns /\ length ns = Nat.min nn (length (t_alive t)) /\ (forall n, In n ns -> In n (t_alive t)) /\
     forall n m v w, In n ns -> node_at t n v -> node_at t m w -> ~ In m ns -> (dist v q <= dist w q)%R).
Proof.
  intros dist He Hk Hx t q Ht. pose proof (reached_coherent eqv knn1 knn He Hk t Ht) as H. split.
  - intros Hr. destruct (nearest_exact eqv knn1 knn dist He Hk Hx t q H Hr) as (n & v & E & G). exists n, v. cbn [tstep]. rewrite E. auto.
  - intros nn Hr. destruct (nearests_exact eqv knn1 knn dist He Hk Hx t q nn H Hr) as (ns & E & G). exists ns. cbn [tstep]. rewrite E. auto.
Qed.

(** [Reparent] keeps the nodes, their states and the number of nodes, and moves [c] below [p] as in C58. *)
Theorem C102_reparent :
  equivalence V eqv -> knn_in_range knn1 knn ->
  forall t c p, treached eqv knn1 knn t -> tallowed t (OReparent c p) ->
  exists t', tstep eqv knn1 knn t (OReparent c p) = Ok (t', RNothing) /\
  (forall n v, node_at t' n v <-> node_at t n v) /\ t_size t' = t_size t /\ reparent_effect (t_heap t) c p (t_root t) (t_heap t') (t_root t').
Proof.
  intros He Hk t c p Ht Ha. pose proof (reached_coherent eqv knn1 knn He Hk t Ht) as H.
  destruct (reparent_ok eqv t c p H Ha) as (t' & E & _ & A & B & C & D). exists t'. cbn [tstep]. rewrite E. split; auto.
  unfold node_at, t_size. rewrite A, B, C. split; [reflexivity|auto].
Qed.

(** [Size] is the number of nodes, every node belongs to the tree, [Clear] leaves none, and [CreateRootNode] on an empty tree gives one. *)
Theorem C102_size_clear_create :
  equivalence V eqv -> knn_in_range knn1 knn ->
  forall t, treached eqv knn1 knn t ->
  tstep eqv knn1 knn t OSize = Ok (t, RSize (length (t_alive t))) /\
  (forall n, In n (t_alive t) -> tstep eqv knn1 knn t (OBelongs n) = Ok (t, RBool true)) /\
  (exists t', tstep eqv knn1 knn t OClear = Ok (t', RNothing) /\ t_alive t' = [] /\ t_root t' = None) /\
  (t_root t = None -> forall v, exists t' n, tstep eqv knn1 knn t (OCreate v) = Ok (t', RNode (Some n)) /\ t_root t' = Some n /\
     t_alive t' = [n] /\ node_at t' n v).
Proof.
  intros He Hk t Ht. pose proof (reached_coherent eqv knn1 knn He Hk t Ht) as H. cbn [tstep]. split; [unfold t_size; now rewrite (co_size _ _ H)|]. split; [|split].
  - intros n Hn. now rewrite (belongs_ok eqv t n H Hn).
  - destruct (clear_ok eqv t H) as (t' & E & _ & A & B & _). exists t'. rewrite E. auto.
  - intros Hr v. destruct (create_ok eqv t v H Hr) as (t' & n & E & _ & A & B & C & _). exists t', n. rewrite E. unfold node_at. rewrite A.
    repeat split; auto. now left.
Qed.
End Props.
Print Assumptions C102_consistent.
Print Assumptions C102_extend.
Print Assumptions C102_nearest.
Print Assumptions C102_reparent.
Print Assumptions C102_size_clear_create.

(** The hypotheses are met: natural numbers with their distance and a search that sorts them (TreeMem_proofs.v). *)
Example C102_inputs : equivalence nat Nat.eqb /\ knn_in_range nat_knn1 nat_knn /\ knn_exact nat_knn1 nat_knn (fun x y => INR (gap x y)).
Proof.
  split; [|split; [exact nat_knn_range|exact nat_knn_exact]].
  split; [exact Nat.eqb_refl|intros x y H; apply Nat.eqb_eq in H; now apply Nat.eqb_eq|intros x y z H1 H2; apply Nat.eqb_eq in H1, H2; apply Nat.eqb_eq; congruence].
Qed.

(** A root, three extensions, a node made the root by [Reparent]. *)
Definition demo_calls : list (top nat) := [OCreate 5; OExtend 8 None; OExtend 9 (Some 1); OExtend 1 (Some 0); OReparent 0 2].
Definition returns (t : tmem nat) (x : top nat) : option (tval) :=
  match tstep Nat.eqb nat_knn1 nat_knn t x with Ok (_, r) => Some r | _ => None end.
Lemma demo_facts : match trun t_new demo_calls with
  | Ok t => t_alive t = [0; 1; 2; 3]%nat /\ t_root t = Some 2%nat /\ map (h_parent (t_heap t)) [0; 1; 2; 3]%nat = [Some 2; Some 0; None; Some 0]%nat /\
      returns t (ONearest 2) = Some (RNode (Some 3%nat)) /\ returns t (ONearests 7 2) = Some (RNodes [Some 1; Some 0]%nat) /\
      returns t (OExtend 8 None) = Some (RNode (Some 1%nat)) /\ returns t (OExtend 7 None) = Some (RNode (Some 4%nat))
  | _ => False
  end.
Proof. vm_compute. repeat split. Qed.
Example C102_case : exists t, trun t_new demo_calls = Ok t /\ treached Nat.eqb nat_knn1 nat_knn t /\
  t_alive t = [0; 1; 2; 3]%nat /\ t_root t = Some 2%nat /\ map (h_parent (t_heap t)) [0; 1; 2; 3]%nat = [Some 2; Some 0; None; Some 0]%nat /\
  returns t (ONearest 2) = Some (RNode (Some 3%nat)) /\ returns t (ONearests 7 2) = Some (RNodes [Some 1; Some 0]%nat) /\
  returns t (OExtend 8 None) = Some (RNode (Some 1%nat)) /\ returns t (OExtend 7 None) = Some (RNode (Some 4%nat)).
Proof.
  pose proof demo_facts as H. destruct (trun t_new demo_calls) as [t| | |] eqn:E; try contradiction. exists t. split; auto. split; auto.
  exact (trun_reached demo_calls t_new t (treached_new _ _ _) E).
Qed.

(** Why [CreateRootNode] is restricted to an empty tree: a second root with the state of the first leaves the map with a pointer to the node that
    was destroyed. [GetNearestNode] returns it, and extending from it is undefined. *)
Example C102_second_root :
  match tstep Nat.eqb nat_knn1 nat_knn t_new (OCreate 5%nat) with
  | Ok (t1, r1) => r1 = RNode (Some 0%nat) /\
    match tstep Nat.eqb nat_knn1 nat_knn t1 (OCreate 5%nat) with
    | Ok (t2, r2) => r2 = RNode (Some 1%nat) /\ t_alive t2 = [1%nat] /\ returns t2 (ONearest 7%nat) = Some (RNode (Some 0%nat)) /\
        tstep Nat.eqb nat_knn1 nat_knn t2 (OExtend 7%nat None) = UB
    | _ => False
    end
  | _ => False
  end.
Proof. vm_compute. repeat split. Qed.

(** An equality that is not reflexive, as that of coordinates that are not a number, is excluded for a reason: the root is never found, the map
    gives a null pointer, and [Extend] returns it. *)
Example C102_nan :
  match tstep (fun _ _ => false) nat_knn1 nat_knn t_new (OCreate 5%nat) with
  | Ok (t1, _) => match tstep (fun _ _ => false) nat_knn1 nat_knn t1 (OExtend 7%nat None) with Ok (_, r) => r = RNode None | _ => False end
  | _ => False
  end.
Proof. vm_compute. reflexivity. Qed.
