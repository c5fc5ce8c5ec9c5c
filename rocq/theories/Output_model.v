(** Model of Optima/Outputter.cpp and of the output table of MasterSolver
    (Optima/MasterSolver.cpp:57-112).  A line is the text written to the file up to its '\n'.
    Not modelled: the file, the formatting of numbers (values enter as strings). *)
From Coq Require Import List Arith Bool String Ascii.
Import ListNotations.
Local Open Scope nat_scope.
Local Open Scope list_scope.
Local Notation "a +++ b" := (String.append a b) (at level 60, right associativity).
Local Notation slen := String.length.

(** Outputter.cpp:30-33 *)
Definition colwidth (width : nat) (str : string) : nat :=
  if slen str + 4 <? width then width else slen str + 4.

(** std::string(n, c) *)
Fixpoint fill (n : nat) (c : ascii) : string :=
  match n with 0 => EmptyString | S n => String c (fill n c) end.
(** Outputter.cpp:36-39 *)
Definition barstr (width : nat) (str : string) : string := fill (colwidth width str) "="%char.

(** out << std::setw(n) << std::left << s: padded with blanks on the right, never cut *)
Definition setw_left (n : nat) (s : string) : string := s +++ fill (n - slen s) " "%char.

(** the texts written one after the other *)
Fixpoint text (l : list string) : string :=
  match l with [] => EmptyString | s :: l => s +++ text l end.

(** Outputter.cpp:110-112, 119-121: the bars above and below the header *)
Definition bar_fields (sep : string) (width : nat) (entries : list string) : list string :=
  map (fun e => if String.eqb e sep then sep else barstr width e) entries.
Definition bar_line sep width entries : string := text (bar_fields sep width entries).
(** Outputter.cpp:114-117: the header *)
Definition header_fields (sep : string) (width : nat) (entries : list string) : list string :=
  map (fun e => if String.eqb e sep then sep else setw_left (colwidth width e) e) entries.
Definition header_line sep width entries : string := text (header_fields sep width entries).

(** Outputter.cpp:134-137: the iterator [entry] advances only when a value is written that is
    not the separator.  [entries] are those from the iterator on; past the end (which the
    assertion at 132 excludes) the width of the empty name is used. *)
Fixpoint state_fields (sep : string) (width : nat) (entries values : list string) : list string :=
  match values with
  | [] => []
  | v :: values =>
      if String.eqb v sep then sep :: state_fields sep width entries values
      else setw_left (colwidth width (hd EmptyString entries)) v :: state_fields sep width (tl entries) values
  end.
(** Outputter.cpp:126-141.  [None]: the assertion at 132 fails. *)
Definition state_line sep width (entries values : list string) : option string :=
  if List.length entries =? List.length values then Some (text (state_fields sep width entries values)) else None.

(** Outputter.cpp:62-69: prefix[i]; [num] is the decimal notation of an index *)
Definition bracket (prefix name : string) : string := prefix +++ "[" +++ name +++ "]".
Definition addEntries_num (num : nat -> string) (prefix : string) (size : nat) : list string :=
  map (fun i => bracket prefix (num i)) (seq 0 size).
(** Outputter.cpp:71-88.  [None]: throws. *)
Definition addEntries (num : nat -> string) (prefix : string) (size : nat) (names : list string) : option (list string) :=
  if negb (List.length names =? 0) && negb (List.length names =? size) then None
  else Some (if List.length names =? 0 then addEntries_num num prefix size else map (bracket prefix) names).

Fixpoint concat_opt {A} (l : list (option (list A))) : option (list A) :=
  match l with
  | [] => Some []
  | None :: _ => None
  | Some a :: l => option_map (app a) (concat_opt l)
  end.

(** MasterSolver.cpp:58-77 *)
Record onames := ONames { xnames : list string; pnames : list string; ynames : list string; znames : list string }.
Definition table_entries (num : nat -> string) (nx np ny nz : nat) (o : onames) : option (list string) :=
  concat_opt
    [ Some ["Iteration"; "f"; "Error"; "||ex||max"; "||ep||max"; "||ew||max"]%string;
      addEntries num "x" nx (xnames o); addEntries num "p" np (pnames o);
      addEntries num "y" ny (ynames o); addEntries num "z" nz (znames o);
      addEntries num "s" nx (xnames o); addEntries num "ex" nx (xnames o);
      addEntries num "ep" np (pnames o); addEntries num "ey" ny (ynames o);
      addEntries num "ez" nz (znames o);
      Some ["Basic Variables"%string] ].

(** MasterSolver.cpp:87-111.  What is shown of the solver, as formatted text: the first six
    values, uo.x, uo.p, uo.w, s, ex, ep, ew and the indices jb. *)
Record shown := Shown { h_first : list string; h_x : list string; h_p : list string; h_w : list string;
  h_s : list string; h_ex : list string; h_ep : list string; h_ew : list string; h_jb : list nat }.
(** MasterSolver.cpp:108-111: "i j k " or the names of those variables *)
Definition basic_text (num : nat -> string) (o : onames) (jb : list nat) : string :=
  text (map (fun i => (if List.length (xnames o) =? 0 then num i else nth i (xnames o) EmptyString) +++ " ") jb).
Definition table_values (num : nat -> string) (ny nz : nat) (o : onames) (h : shown) : list string :=
  h_first h ++ h_x h ++ h_p h ++ firstn ny (h_w h) ++ skipn (List.length (h_w h) - nz) (h_w h) ++
  h_s h ++ h_ex h ++ h_ep h ++ firstn ny (h_ew h) ++ skipn (List.length (h_ew h) - nz) (h_ew h) ++
  [basic_text num o (h_jb h)].
