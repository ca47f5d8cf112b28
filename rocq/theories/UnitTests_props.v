(** The unit tests of the repository that make definite claims, run on the model: their assertions hold. They tie the model to the code; what they
    test is proved in general by C01, C58 and C102 (and test_a_star.cpp by C117). *)
From Coq Require Import ZArith.
From Verif Require Import Base Frontier_model Node_model TreeMem_model.

(** /repo/planner/tests/test_frontier.cpp: pairs compared by their first and identified by their second component. *)
Definition ut_cmp (l r : Z * Z) : bool := (fst l <? fst r)%Z.
Definition ut_eqk (l r : Z * Z) : bool := (snd l =? snd r)%Z.
Definition ut_pushes : list (Z * Z) :=
  [(-3, 10); (-4, 10); (1, 2); (-1, 15); (-5, 12); (2, 2); (1, 3); (-2, 14); (0, 15); (-6, 13); (1, 1); (1, 2); (1, 14); (1, 13); (2, 4)]%Z.
Fixpoint ut_sorted (l : list (Z * Z)) : bool :=
  match l with
  | a :: (b :: _) as r => (fst a <=? fst b)%Z && ut_sorted r
  | _ => true
  end.
Definition ut_frontier : res (frontier (Z * Z)) :=
  fold_left (fun f x => do f <- f; do r <- f_push ut_cmp ut_eqk x f; Ok (snd r)) ut_pushes (Ok f_empty).
Example test_frontier :
  match ut_frontier with
  | Ok f =>
    ut_sorted (vec f) = true /\ f_size f = 9%nat /\
    match f_pop ut_eqk f with
    | Ok (x, f1) =>
      x = (2, 4)%Z /\ f_find ut_eqk x f1 = None /\
      match f_remove ut_cmp ut_eqk (2, 4)%Z f1 with
      | Ok (n2, f2) =>
        n2 = 0%nat /\
        match f_remove ut_cmp ut_eqk (0, 1)%Z f2 with
        | Ok (n3, f3) =>
          n3 = 1%nat /\
          match f_remove ut_cmp ut_eqk (1, 1)%Z f3 with
          | Ok (n4, f4) => n4 = 0%nat /\ f_find ut_eqk (0, 2)%Z f4 = Some (1, 2)%Z /\ f_find ut_eqk (0, 0)%Z f4 = None /\
                           f_find ut_eqk (1, 2)%Z f4 = Some (1, 2)%Z
          | _ => False
          end
        | _ => False
        end
      | _ => False
      end
    | _ => False
    end
  | _ => False
  end.
Proof. vm_compute. repeat split. Qed.

(** /repo/planner/tests/test_tree.cpp, with coordinates in tenths. The k-d tree is replaced by an insertion sort of the points by their distance. *)
Definition ut_dist (a b : Z * Z) : Z := ((fst a - fst b) * (fst a - fst b) + (snd a - snd b) * (snd a - snd b))%Z.
Definition ut_eqv (a b : Z * Z) : bool := (fst a =? fst b)%Z && (snd a =? snd b)%Z.
Fixpoint ut_insert (x : Z * nat) (l : list (Z * nat)) : list (Z * nat) :=
  match l with
  | [] => [x]
  | y :: r => if (fst x <? fst y)%Z then x :: l else y :: ut_insert x r
  end.
Definition ut_order (l : list (Z * Z)) (q : Z * Z) : list nat :=
  map snd (fold_left (fun acc x => ut_insert x acc) (combine (map (ut_dist q) l) (seq 0 (length l))) []).
Definition ut_knn1 (l : list (Z * Z)) (q : Z * Z) : nat := hd 0%nat (ut_order l q).
Definition ut_knn (l : list (Z * Z)) (q : Z * Z) (n : nat) : list nat := firstn n (ut_order l q).

(** The tree of all these tests: the nodes A, B, C and D are 0, 1, 2 and 3. *)
Fixpoint ut_calls (t : tmem (Z * Z)) (l : list (top (Z * Z))) : res (tmem (Z * Z)) :=
  match l with
  | [] => Ok t
  | x :: r => do (t', v) <- tstep ut_eqv ut_knn1 ut_knn t x; ut_calls t' r
  end.
Definition ut_tree : res (tmem (Z * Z)) :=
  ut_calls t_new [OCreate (0, 0)%Z; OExtend (10, 0)%Z (Some 0%nat); OExtend (20, 0)%Z (Some 1%nat); OExtend (30, 0)%Z (Some 2%nat)].

Example test_depth_descendant_ancestor :
  match ut_tree with
  | Ok t =>
    let h := t_heap t in
    map (get_depth 5 h) [0; 1; 2; 3]%nat = [Ok 0; Ok 1; Ok 2; Ok 3]%nat /\
    is_descendant_of 5 h 1 0 = Ok true /\ is_descendant_of 5 h 2 0 = Ok true /\ is_descendant_of 5 h 0 3 = Ok false
  | _ => False
  end.
Proof. vm_compute. repeat split. Qed.

Example test_replace_child :
  match ut_tree with
  | Ok t =>
    let (h, e) := new_node (t_heap t) in
    match replace_child h 0 1 e true with
    | Some h' => is_descendant_of 6 h' e 0 = Ok true /\ is_descendant_of 6 h' 2 e = Ok true /\ h_parent h' 1%nat = None
    | None => False
    end
  | _ => False
  end.
Proof. vm_compute. repeat split. Qed.

Example test_nearest :
  match ut_tree with
  | Ok t =>
    match tstep ut_eqv ut_knn1 ut_knn t (ONearest (11, 0)%Z) with Ok (_, r) => r = RNode (Some 1%nat) | _ => False end /\
    match tstep ut_eqv ut_knn1 ut_knn t (ONearests (24, 2)%Z 2) with Ok (_, r) => r = RNodes [Some 2; Some 3]%nat | _ => False end
  | _ => False
  end.
Proof. vm_compute. repeat split. Qed.

(** [TestReparent]; the second call makes C the root. *)
Example test_reparent :
  match ut_tree with
  | Ok t =>
    match t_reparent t 3 1 with
    | Ok t1 =>
      h_parent (t_heap t1) 3%nat = Some 1%nat /\
      match t_reparent t1 0 2 with
      | Ok t2 => h_parent (t_heap t2) 0%nat = Some 2%nat /\ t_root t2 = Some 2%nat /\
                 map (h_parent (t_heap t2)) [1; 2; 3]%nat = [Some 0; None; Some 1]%nat
      | _ => False
      end
    | _ => False
    end
  | _ => False
  end.
Proof. vm_compute. repeat split. Qed.
