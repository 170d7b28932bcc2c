(** The table of statistics: menpofit/visualize/textutils.py 76-259.  The pandas data frame is modelled by its index and
    its columns; the number of decimals (257) is left out. *)
From Coq Require Import String List Reals Arith Bool.
From Verif.Model Require Import Py Result Dict Summary.
Import ListNotations.

(** pandas.DataFrame: row labels, and named columns in order. *)
Record frame := mkFrame { f_index : list string; f_cols : dict (list R) }.

(** pn.DataFrame(data, index=method_names), 243: every column must be as long as the index. *)
Definition data_frame (data : dict (list R)) (index : list string) : res frame :=
  if forallb (fun c => Nat.eqb (length (snd c)) (length index)) data then Ok (mkFrame index data) else Err ValueError.

(** The order in which sort_values visits the rows, 253: insertion of the positions by key.  pandas leaves the order of
    equal keys open; nothing below depends on it. *)
Fixpoint insert_pos (le : R -> R -> bool) (k : R) (i : nat) (l : list (R * nat)) : list (R * nat) :=
  match l with
  | [] => [(k, i)]
  | (k', i') :: r => if le k k' then (k, i) :: l else (k', i') :: insert_pos le k i r
  end.
Fixpoint argsort (le : R -> R -> bool) (l : list (R * nat)) : list (R * nat) :=
  match l with [] => [] | (k, i) :: r => insert_pos le k i (argsort le r) end.
Definition leb (x y : R) : bool := if Rle_dec x y then true else false.
(** tab.sort_values(by=column, inplace=True, ascending=ascending), 253-254 *)
Definition sort_values (by_ : string) (ascending : bool) (t : frame) : res frame :=
  let? keys := dict_at by_ (f_cols t) in
  let le := if ascending then leb else fun x y => leb y x in
  let order := map snd (argsort le (combine keys (seq 0 (length keys)))) in
  Ok (mkFrame (map (fun i => nth i (f_index t) EmptyString) order)
              (map (fun c => (fst c, map (fun i => nth i (snd c) 0%R) order)) (f_cols t))).

Definition supported_types : list string := ["mean"; "std"; "median"; "mad"; "max"; "auc"; "fr"]%string.
Definition member (s : string) (l : list string) : bool := existsb (String.eqb s) l.

(** The column of a type, 224-240. *)
Definition column (s : summary) (stat_type : string) : res (list R) :=
  match s with
  | Single _ => Err TypeError (* not reached: the errors are always a list of lists *)
  | Columns means stds medians mads maxs aucs frs =>
      if negb (member stat_type supported_types) then Err ValueError
      else Ok (if (stat_type =? "mean")%string then means
               else if (stat_type =? "std")%string then stds
               else if (stat_type =? "median")%string then medians
               else if (stat_type =? "mad")%string then mads
               else if (stat_type =? "max")%string then maxs
               else if (stat_type =? "auc")%string then aucs
               else frs)
  end.
(** The loop 222-240. *)
Fixpoint fill (s : summary) (typed : list (string * string)) (data : dict (list R)) : res (dict (list R)) :=
  match typed with
  | [] => Ok data
  | (stat_type, stat_name) :: r =>
      let? c := column s stat_type in
      fill s r (dict_set stat_name c data)
  end.

(** l.index(x) *)
Fixpoint index_of (x : string) (l : list string) : option nat :=
  match l with [] => None | y :: r => if String.eqb x y then Some 0 else option_map S (index_of x r) end.

Section Table.
  (** area_under_curve_and_failure_rate with the given step and limits (Model/Stats.v) *)
  Variable auc_fr : list R -> res (R * R).
  (** Lines 198-200: [errors] is a list of lists, or (the first element is no list) the errors of one method.  Arrays
      instead of lists are not modelled. *)
  Definition as_lists (errors : list item) : res (list item) :=
    match errors with
    | [] => Err IndexError
    | Coll _ :: _ => Ok errors
    | Num _ :: _ => let? e := mapM (fun i => match i with Num x => Ok x | Coll _ => Err ValueError end) errors in Ok [Coll e]
    end.
  Definition statistics_table (errors : list item) (method_names : list string) (stats_types stats_names : option (list string))
      (sort_by : option string) : res frame :=
    let? errors := as_lists errors in
    let? s := compute_statistical_measures auc_fr errors in
    let types := match stats_types with None => supported_types | Some l => l end in
    let names := match stats_names with None => types | Some l => l end in
    if negb (Nat.eqb (length types) (length names)) then Err ValueError else
    let? data := fill s (combine types names) [] in
    let? tab := data_frame data method_names in
    match sort_by with
    | None => Ok tab
    | Some k =>
        if negb (member k types) then Err ValueError else
        match index_of k types with
        | None => Err ValueError (* not reached *)
        | Some i => let? by_ := nth_res names i in
                    sort_values by_ (negb (String.eqb k "auc")) tab
        end
    end.
End Table.
