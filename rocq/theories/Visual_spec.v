(** The PPM format (binary, one byte per sample), as a reader of it: the two bytes "P6"; width, height and the largest sample in
    decimal, each after white space and comments (from "#" to the end of the line); one white space; the samples, three for each pixel, line
    by line from the top. *)
From Verif Require Import Base Grid_model.
Open Scope Z_scope.

Record picture := Picture { p_width : Z; p_height : Z; p_max : Z; p_samples : list Z }.

Definition blank (b : Z) : bool := (b =? 32) || (9 <=? b) && (b <=? 13).
Definition digit (b : Z) : bool := (48 <=? b) && (b <=? 57).

Fixpoint skip (comment : bool) (l : list Z) : list Z :=
  match l with
  | [] => []
  | b :: r =>
      if comment then skip (negb (b =? 10)) r
      else if b =? 35 then skip true r
      else if blank b then skip false r
      else l
  end.

Fixpoint number (n : Z) (l : list Z) : Z * list Z :=
  match l with
  | b :: r => if digit b then number (10 * n + (b - 48)) r else (n, l)
  | [] => (n, l)
  end.

Definition read_number (l : list Z) : option (Z * list Z) :=
  match skip false l with
  | (b :: _) as l => if digit b then Some (number 0 l) else None
  | [] => None
  end.

Definition read_ppm (l : list Z) : option picture :=
  match l with
  | p :: six :: l =>
      if negb ((p =? 80) && (six =? 54)) then None
      else
        match read_number l with
        | Some (w, l) =>
            match read_number l with
            | Some (h, l) =>
                match read_number l with
                | Some (m, b :: l) =>
                    if blank b && (0 <? m) && (m <? 256) && (Z.of_nat (length l) =? 3 * w * h) && forallb (fun x => (0 <=? x) && (x <=? m)) l
                    then Some (Picture w h m l) else None
                | _ => None
                end
            | None => None
            end
        | None => None
        end
  | _ => None
  end.

(** The pixel in this column, counted from the left, and line, counted from the top. *)
Definition pixel (p : picture) (column line : Z) : option (Z * Z * Z) :=
  if (0 <=? column) && (column <? p_width p) && (0 <=? line) && (line <? p_height p) then
    let k := Z.to_nat (3 * (line * p_width p + column)) in
    match nth_error (p_samples p) k, nth_error (p_samples p) (k + 1), nth_error (p_samples p) (k + 2) with
    | Some r, Some g, Some b => Some (r, g, b)
    | _, _, _ => None
    end
  else None.

(** In a picture of a map, the first axis points to the right and the second one up. *)
Definition shown (p : picture) (c : cell) : option (Z * Z * Z) := pixel p (row c) (p_height p - 1 - col c).
