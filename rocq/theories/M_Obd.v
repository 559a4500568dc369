(** * M_Obd: model of the feature encoding of obp/dataset/real.py (OpenBanditDataset.pre_process).

    A data frame is a list of named columns of equal length.  A column is either categorical (strings, [None] for a
    missing value) or numeric.  pandas' [get_dummies] and scikit-learn's [LabelEncoder] are modelled on such columns;
    the frames are the ones [load_raw_data] has read and sorted (M_Data.obd_load). *)

From Coq Require Import String Ascii Reals List ZArith Bool.
From Verif Require Import Num NpList.
Import ListNotations.
Open Scope R_scope.

(** One column of a data frame.  Models: dataset/real.py 174-187 (the frames read from the files). *)
Inductive column := Cats (l : list (option string)) | Nums (l : arr1).
(** Models: dataset/real.py 174-187. *)
Definition table := list (string * column).

(** ** Sorted distinct values *)

Section Levels.
Context {A : Type} (cmp : A -> A -> comparison).
(** Insertion into a strictly increasing list.  Models: dataset/real.py 199-201, 203-205 (the sorted distinct values
    pandas and scikit-learn compute). *)
Fixpoint insert_level (x : A) (l : list A) : list A :=
  match l with
  | [] => [x]
  | y :: r => match cmp x y with Lt => x :: l | Eq => l | Gt => y :: insert_level x r end
  end.
(** The distinct values in increasing order; missing values are left out.  Models: dataset/real.py 199-201, 203-205. *)
Fixpoint levels (l : list (option A)) : list A :=
  match l with
  | [] => []
  | None :: r => levels r
  | Some x :: r => insert_level x (levels r)
  end.
(** The position of a value among the levels.  Models: dataset/real.py 203-205 ([LabelEncoder.fit_transform]). *)
Fixpoint position_in (x : A) (lv : list A) : nat :=
  match lv with [] => 0%nat | y :: r => match cmp x y with Eq => 0%nat | _ => S (position_in x r) end end.
(** [LabelEncoder] (scikit-learn >= 1.0): missing values come after all others.  Models: dataset/real.py 203-205. *)
Definition label_code (lv : list A) (c : option A) : nat :=
  match c with Some x => position_in x lv | None => length lv end.
Definition label_encode (l : list (option A)) : list nat := map (label_code (levels l)) l.
End Levels.

(** Order of numbers; [nan] counts as missing (and would come last).  Models: dataset/real.py 203-205 (numeric item
    features). *)
Definition num_cmp (x y : num) : comparison :=
  match x, y with
  | NaN, NaN => Eq
  | NaN, _ => Gt
  | _, NaN => Lt
  | _, _ => if nlt x y then Lt else if nlt y x then Gt else Eq
  end.
Definition num_cell (x : num) : option num := match x with NaN => None | _ => Some x end.

(** ** get_dummies *)

(** One cell of a categorical column: an indicator for each level but the first ([drop_first=True]); a missing value
    has none.  Models: dataset/real.py 199-201. *)
Definition dummies (lv : list string) (c : option string) : arr1 :=
  map (fun v => match c with Some s => if String.eqb s v then Fin 1 else Fin 0 | None => Fin 0 end) (tl lv).

(** The columns that stay as they are, and the encoded ones, of row [i].  Models: dataset/real.py 199-201 (pandas puts
    the columns it does not encode first). *)
Definition row_nums (t : table) (i : nat) : arr1 :=
  flat_map (fun nc => match snd nc with Nums l => [nth i l NaN] | Cats _ => [] end) t.
Definition row_dummies (t : table) (i : nat) : arr1 :=
  flat_map (fun nc => match snd nc with Cats l => dummies (levels String.compare l) (nth i l None) | Nums _ => [] end) t.
Definition get_dummies (n : nat) (t : table) : arr2 := map (fun i => row_nums t i ++ row_dummies t i) (seq 0 n).

(** ** pre_process *)

(** [columns.str.contains("user_feature")].  Models: dataset/real.py 198. *)
Definition is_user_feature (name : string) : bool :=
  match String.index 0 "user_feature" name with Some _ => true | None => false end.
(** real.py 198-201: the context of a log of [n] rounds with columns [t]. *)
Definition obd_context (n : nat) (t : table) : arr2 := get_dummies n (filter (fun nc => is_user_feature (fst nc)) t).

(** [frame[name]]; a missing column is a KeyError.  Models: dataset/real.py 202-205. *)
Fixpoint column_of (t : table) (name : string) : res column :=
  match t with [] => Err KeyError | (k, c) :: r => if String.eqb k name then Ok c else column_of r name end.
(** Models: dataset/real.py 203-205. *)
Definition encode_column (c : column) : list nat :=
  match c with Cats l => label_encode String.compare l | Nums l => label_encode num_cmp (map num_cell l) end.
(** A column that is not encoded, as an array entry (a string entry is no number: [None]).  Models: dataset/real.py
    202, 206-208. *)
Definition raw_entry (c : column) (i : nat) : num + option string :=
  match c with Nums l => inl (nth i l NaN) | Cats l => inr (nth i l None) end.
(** real.py 202-208: [item_feature_0] and the encoded other columns; the rows are those of the file, in its order. *)
Definition obd_action_context (m : nat) (t : table) : res (list (list nat * (num + option string))) :=
  f0 <- column_of t "item_feature_0" ;;
  column_of t "item_id" ;;;
  let rest := filter (fun nc => negb (String.eqb (fst nc) "item_id" || String.eqb (fst nc) "item_feature_0")) t in
  let codes := map (fun nc => encode_column (snd nc)) rest in
  Ok (map (fun i => (map (fun l => nth i l 0%nat) codes, raw_entry f0 i)) (seq 0 m)).
