(** The results in the GUI: ReportTree (/repo/gui/reporttree.cpp:27-117), ProductTableModel
    (gui/producttablemodel.cpp:28-119), ImportanceTableModel (gui/importancetablemodel.cpp:29-98) and the tables
    that MainWindow::activateReportTree opens (gui/mainwindow.cpp:1534-1575), on the findings of Report.v.
    Simplifications: only the display role and the functions a view calls; a text is a list of code points and
    [id] is BasicEvent::id() in them; the probability of a record of the importance table, read from the event,
    is the one given with the record; numbers as in Report.v, not yet printed.  None: a GUI_ASSERT fails, a null pointer
    is followed, or there is no such row or column. *)
From Coq Require Import List String ZArith NArith Bool.
From Verif Require Serial.
From Verif Require Import Report.
Import ListNotations.
Local Open Scope list_scope.

(** QModelIndex: the row, the column and the internal pointer, 0 for null. *)
Record index := mkIndex { i_row : nat; i_column : nat; i_pointer : nat }.
Inductive cell (num : Type) := CText (t : list N) | CInt (n : Z) | CNum (x : num).
Arguments CText {num}. Arguments CInt {num}. Arguments CNum {num}.
(** The texts of a child row: a number of products, a probability, a number of records. *)
Inductive entry (num : Type) := Products (n : nat) | Probability (p : num) | Importance (n : nat).
Arguments Products {num}. Arguments Probability {num}. Arguments Importance {num}.
Inductive shown_text (num : Type) := SName (g : string) | SEntry (e : entry num).
Arguments SName {num}. Arguments SEntry {num}.

Section Shown.
Context {num : Type} (O : operations num) (id : event -> list N).

(** *** reporttree.cpp *)
(** 59-66 *)
Definition tree_index (row column : nat) (parent : option index) : index :=
  mkIndex row column match parent with None => 0 | Some p => S (i_row p) end.
(** 68-77 *)
Definition tree_parent (i : index) : option index := match i_pointer i with 0 => None | S r => Some (mkIndex r 0 0) end.
(** 33-48 *)
Definition row_count (results : list (finding num)) (parent : option index) : option nat :=
  match parent with
  | None => Some (List.length results)
  | Some p =>
      match tree_parent p with
      | Some _ => Some 0
      | None =>
          match nth_error results (i_row p) with
          | None => None
          | Some r => match r_importance r with Some _ => Some 3 | None =>
                      match r_probability r with Some _ => Some 2 | None =>
                      match r_products r with Some _ => Some 1 | None => None end end end
          end
      end
  end.
(** 79-117 *)
Definition tree_data (results : list (finding num)) (i : index) : option (shown_text num) :=
  match tree_parent i with
  | None => match nth_error results (i_row i) with
            | Some r => match i_target (r_id r) with TGate g => Some (SName g) | TSequence _ _ => None end
            | None => None
            end
  | Some p =>
      match nth_error results (i_row p) with
      | None => None
      | Some r =>
          match i_row i with
          | 0 => match r_products r with Some c => Some (SEntry (Products (List.length (c_products c)))) | None => None end
          | 1 => match r_probability r with Some a => Some (SEntry (Probability (a_total a))) | None => None end
          | 2 => match r_importance r with Some a => Some (SEntry (Importance (List.length (n_entries a)))) | None => None end
          | _ => None
          end
      end
  end.

(** *** producttablemodel.cpp *)
Definition separator : list N := [32; 8901; 32]%N.
Definition member (l : bool * event) : list N := (if fst l then [172%N] else []) ++ id (snd l).
(** 34-41 *)
Fixpoint product_text (l : list (bool * event)) : list N :=
  match l with [] => [] | [x] => member x | x :: r => member x ++ separator ++ product_text r end.
Record product_row := mkRow { w_text : list N; w_order : Z; w_probability : num; w_contribution : num }.
(** 31-52; a contribution that is not set is zero *)
Definition product_rows (c : container num) (with_p : bool) : list product_row :=
  let rows := map (fun p => mkRow (product_text (map (literal c) p)) (order p) (if with_p then product_p O c p else zero O) (zero O)) (c_products c) in
  let sum := fold_left (fun s r => add O s (w_probability r)) rows (zero O) in
  if is_zero O sum then rows
  else map (fun r => mkRow (w_text r) (w_order r) (w_probability r) (quot O (w_probability r) sum)) rows.
(** 55-63, 99-119 *)
Definition product_columns (with_p : bool) : nat := if with_p then 4 else 2.
Definition product_cell (rows : list product_row) (row column : nat) : option (cell num) :=
  match nth_error rows row with
  | None => None
  | Some r => match column with 0 => Some (CText (w_text r)) | 1 => Some (CInt (w_order r)) | 2 => Some (CNum (w_probability r)) | 3 => Some (CNum (w_contribution r)) | _ => None end
  end.
(** What a view reads of a table. *)
Definition view_table (cell_of : nat -> nat -> option (cell num)) (rows columns : nat) : option (list (list (cell num))) :=
  Serial.all (fun r => Serial.all (cell_of r) (seq 0 columns)) (seq 0 rows).
(** mainwindow.cpp:1549-1552 *)
Definition open_products (r : finding num) : option (list (list (cell num))) :=
  match r_products r with
  | None => None
  | Some c => let with_p := match r_probability r with Some _ => true | None => false end in
              let rows := product_rows c with_p in view_table (product_cell rows) (List.length rows) (product_columns with_p)
  end.

(** *** importancetablemodel.cpp:36-44, 72-98 *)
Definition importance_cell (l : list (event * num * factors num)) (row column : nat) : option (cell num) :=
  match nth_error l row with
  | None => None
  | Some (e, p, f) =>
      match column with 0 => Some (CText (id e)) | 1 => Some (CInt (occurrence f)) | 2 => Some (CNum p) | 3 => Some (CNum (mif f)) | 4 => Some (CNum (cif f))
      | 5 => Some (CNum (dif f)) | 6 => Some (CNum (raw f)) | 7 => Some (CNum (rrw f)) | _ => None end
  end.
Definition open_importance (r : finding num) : option (list (list (cell num))) :=
  match r_importance r with None => None | Some a => view_table (importance_cell (n_entries a)) (List.length (n_entries a)) 8 end.

(** What a view reads of the tree: the top rows with the rows below them. *)
Definition view_tree (results : list (finding num)) : option (list (shown_text num * list (shown_text num))) :=
  match row_count results None with
  | None => None
  | Some n =>
      Serial.all (fun r => let top := tree_index r 0 None in
        match tree_data results top, row_count results (Some top) with
        | Some t, Some k => option_map (pair t) (Serial.all (fun j => tree_data results (tree_index j 0 (Some top))) (seq 0 k))
        | _, _ => None
        end) (seq 0 n)
  end.
End Shown.
