(** Model of the files of sample containers with all their traced values
    ([smol/moca/sampler/container.py]): named datasets, checks, growth, and what is left in a
    file when writing raises.  [Container.v] has one row for all traced values together. *)
From Verif Require Export Container.
Set Implicit Arguments.
Open Scope nat_scope.

Section Files.
Variable V : Type.       (** one row of a traced value *)
Variable ensemble : Type.
(** What is stored when a row of the first shape is assigned to a row of the second one: numpy's
    and HDF5's broadcasting and conversion; [None] if it raises. *)
Variable cast : list nat -> list nat -> V -> option V.

(** A traced array or a dataset: name, shape of one row, rows; rows that were not written are
    [None].  The occupancy has the name 0. *)
Record column := mkCol { col_name : nat; col_shape : list nat; col_rows : list (option V) }.
Definition occupancy_name : nat := 0.
Definition find_col (name : nat) (cols : list column) : option column := find (fun c => col_name c =? name) cols.

(** Container (container.py:67-88) and file (container.py:480-500). *)
Record samples := mkSamples { s_ensemble : ensemble; s_cols : list column; s_n : nat; s_steps : nat }.
Record file := mkFile { f_ensemble : ensemble; f_cols : list column; f_n : nat; f_steps : nat }.

(** [_init_backend], container.py:480-500. *)
Definition empty_rows (k : nat) (c : column) : column := mkCol (col_name c) (col_shape c) (repeat None k).
Definition init_backend (s : samples) (k : nat) : file := mkFile (s_ensemble s) (map (empty_rows k) (s_cols s)) 0 0.
(** [_grow_backend], container.py:502-508. *)
Definition grow (k : nat) (c : column) : column := mkCol (col_name c) (col_shape c) (col_rows c ++ repeat None k).

(** [get_backend] with [_check_backend], container.py:435-478: only the shape of occupancies
    is compared; a container or file without occupancies raises as well. *)
Definition shape_eqb (a b : list nat) : bool := if list_eq_dec Nat.eq_dec a b then true else false.
Definition open_file (s : samples) (old : option file) (alloc : nat) : option file :=
  match old with
  | None => Some (init_backend s alloc)
  | Some f =>
    let? mine := find_col occupancy_name (s_cols s) in
    let? theirs := find_col occupancy_name (f_cols f) in
    if shape_eqb (col_shape mine) (col_shape theirs) then
      let available := length (col_rows theirs) - f_n f in
      Some (if available <? alloc then mkFile (f_ensemble f) (map (grow (alloc - available)) (f_cols f)) (f_n f) (f_steps f) else f)
    else None
  end.

(** Assignment of one array to rows of a dataset, [Container.write_rows] with conversion. *)
Definition cast_rows (from to : list nat) (rows : list (option V)) : option (list (option V)) :=
  opt_map (fun r => match r with None => Some None | Some v => let? w := cast from to v in Some (Some w) end) rows.
Definition write_col (start stop : nat) (value ds : column) : option column :=
  let stop' := Nat.min stop (length (col_rows ds)) in
  let k := stop' - start in
  if k =? 0 then Some ds else
  let? new := cast_rows (col_shape value) (col_shape ds) (col_rows value) in
  if length new =? k then Some (mkCol (col_name ds) (col_shape ds) (firstn start (col_rows ds) ++ new ++ skipn stop' (col_rows ds)))
  else match new with
       | [x] => Some (mkCol (col_name ds) (col_shape ds) (firstn start (col_rows ds) ++ repeat x k ++ skipn stop' (col_rows ds)))
       | _ => None
       end.
Definition put_col (cols : list column) (c : column) : list column :=
  map (fun d => if col_name d =? col_name c then c else d) cols.
(** The loop of [flush_to_backend], container.py:423-426: the datasets afterwards, and whether it
    came to the end; a name without dataset raises KeyError. *)
Fixpoint write_all (start stop : nat) (values cols : list column) : list column * bool :=
  match values with
  | [] => (cols, true)
  | v :: vs =>
    match find_col (col_name v) cols with
    | None => (cols, false)
    | Some d => match write_col start stop v d with
                | None => (cols, false)
                | Some d' => write_all start stop vs (put_col cols d')
                end
    end
  end.
(** [flush_to_backend], container.py:416-433: the attributes are changed after the loop. *)
Definition flush_file (s : samples) (f : file) : file * bool :=
  let (cols, ok) := write_all (f_n f) (s_n s + f_n f) (s_cols s) (f_cols f) in
  if ok then (mkFile (f_ensemble f) cols (f_n f + s_n s) (f_steps f + s_steps s), true)
  else (mkFile (f_ensemble f) cols (f_n f) (f_steps f), false).

(** [to_hdf5], container.py:611-624: the file afterwards and whether it returned. *)
Definition save (s : samples) (old : option file) : option file * bool :=
  match open_file s old (s_n s) with
  | None => (old, false)
  | Some f => let (f', ok) := flush_file s f in (Some f', ok)
  end.
(** [from_hdf5], container.py:627-688: of every dataset the rows that count. *)
Definition load (f : file) : samples :=
  mkSamples (f_ensemble f) (map (fun c => mkCol (col_name c) (col_shape c) (firstn (f_n f) (col_rows c))) (f_cols f)) (f_n f) (f_steps f).
End Files.
