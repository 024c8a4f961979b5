(** Model of _array_repr (data.py 277-292), the text of every array class and of AdjacencyList (data.py 521-522, 1150-1151, 1432-1433,
    1854-1855, 1956-1957, 2050-2051, 2451-2452).  numpy's own text of the data and of the dtype are parameters. *)
From Coq Require Import Ascii.
From Verif Require Import Prelude.
Open Scope string_scope.

Definition newline : ascii := "010".
Definition nl : string := String newline "".
(** [str.split("\n")]: never empty. *)
Fixpoint split_lines (s : string) : list string :=
  match s with
  | "" => [""]
  | String c s => match split_lines s with
                  | [] => []   (* does not happen *)
                  | l :: r => if Ascii.eqb c newline then "" :: l :: r else String c l :: r
                  end
  end.
(** [" " * n]. *)
Fixpoint spaces (n : nat) : string := match n with O => "" | S n => String " " (spaces n) end.
(** data.py 277-292. [class_name]: instance.__class__.__name__; [data_str]: str(instance._data); [dtype]: the text of instance.data.dtype. *)
Definition array_repr (class_name data_str dtype : string) : string :=
  match split_lines data_str with
  | [] => ""   (* does not happen: [pop] of an empty list *)
  | first_str :: data_splits =>
      let idnt := spaces (String.length class_name + 1) in
      let dtype_str := "dtype=" ++ dtype in
      match data_splits with
      | [] => class_name ++ "(" ++ first_str ++ ", " ++ dtype_str ++ ")"
      | _ => let dtype_str := idnt ++ dtype_str in
             let rows := String.concat nl (map (fun l => idnt ++ l) data_splits) in
             class_name ++ "(" ++ first_str ++ nl ++ rows ++ "," ++ nl ++ dtype_str ++ ")"
      end
  end.
