(** What the calls made to an [ObstacleListOccupancyMap] mean, independently of its data structures. *)
From Coq Require Import Reals.
From Verif Require Import Base RealBase Grid_model Grid_spec Coords_model Shape_model Shape_spec World_model Gvd_spec.
Local Open Scope R_scope.

(** The boundary of the obstacle can be drawn: it has a shape, and its vertices have representable cells. *)
Definition drawable (f : frames) (x : obst) : Prop := exists l, boundary_cells f x = Ok l.
(** The boundary goes through the cell [c]. *)
Definition draws (f : frames) (x : obst) (c : cell) : bool :=
  match boundary_cells f x with Ok l => existsb (cell_eqb c) l | _ => false end.
(** The point [q] is on the outline of the obstacle. *)
Definition on_obstacle (x : obst) (q : point) : Prop := exists s, ob_shape x = Some s /\ on_shape (ob_pose x) s q.

(** The placement of the map after a history. *)
Definition frames_after (f : frames) (x : wop) : frames :=
  match x with
  | WPos p => fr_set_position f p
  | WSize width height => match fr_init f width height with Ok f' => f' | _ => f end
  | _ => f
  end.
Definition world_frames (f : frames) (ops : list wop) : frames := fold_left frames_after ops f.

(** Which obstacles are registered after a history. *)
Definition registered_step (reg : list nat) (x : wop) : list nat :=
  match x with
  | WAdd o _ => if in_dec Nat.eq_dec o reg then reg else o :: reg
  | WRemove o _ => remove Nat.eq_dec o reg
  | _ => reg
  end.
Definition world_registered (reg : list nat) (ops : list wop) : list nat := fold_left registered_step ops reg.

(** Histories that stay within the interface: the size is set first, and its squared distances are representable; obstacles can be
    drawn; the diagram is updated only when it was created for the current size ([made]). *)
Fixpoint world_used (f : frames) (sized made : bool) (ops : list wop) : Prop :=
  match ops with
  | [] => True
  | x :: r =>
      match x with
      | WPos _ => True
      | WSize width height => exists f', fr_init f width height = Ok f' /\ representable (fr_rows f') (fr_cols f')
      | WAdd _ x | WRemove _ x => sized = true /\ drawable f x
      | WUpdate | WGvd => sized = true
      | WGvdUpdate => sized = true /\ made = true
      end /\
      world_used (frames_after f x) (match x with WSize _ _ => true | _ => sized end)
        (match x with WSize _ _ => false | WGvd => true | _ => made end) r
  end.

(** The cell was drawn by the addition of an obstacle, and not cleared since: by the removal of an obstacle whose boundary goes
    through it, or by setting the size. Adding a registered obstacle and removing another one have no effect. *)
Fixpoint world_covered (f : frames) (reg : list nat) (old : bool) (ops : list wop) (c : cell) : bool :=
  match ops with
  | [] => old
  | x :: r =>
      world_covered (frames_after f x) (registered_step reg x)
        match x with
        | WSize _ _ => false
        | WAdd o x => if in_dec Nat.eq_dec o reg then old else draws f x c || old
        | WRemove o x => if in_dec Nat.eq_dec o reg then negb (draws f x c) && old else old
        | _ => old
        end r c
  end.

(** While the obstacle [o], added with the contents [x], stays: the map keeps its size, [o] is not removed, and no other obstacle
    that is removed has a boundary cell in common with [x]. *)
Definition kept (f : frames) (o : nat) (x : obst) (ops : list wop) : Prop :=
  Forall (fun y => match y with
                   | WSize _ _ => False
                   | WRemove o' x' => o' <> o /\ forall c, draws f x c = true -> draws f x' c = false
                   | _ => True
                   end) ops.

(** The polygons of a shape. *)
Inductive part : shape -> list point -> Prop :=
| part_polygon vs : part (Polygon vs) vs
| part_composite cs c vs : In c cs -> part c vs -> part (Composite cs) vs.

(** The polygons made by the shapes of the library. *)
Inductive library_polygon : list point -> Prop :=
| lp_rectangle dx dy : 0 < dx -> 0 < dy -> library_polygon (rectangle_vertices dx dy)
| lp_regular r n vs : 0 < r -> (3 <= n)%Z -> regular_vertices r n = Ok vs -> library_polygon vs
| lp_circle r n vs : 0 < r -> (3 <= n)%Z -> circle_vertices r n = Ok vs -> library_polygon vs.
