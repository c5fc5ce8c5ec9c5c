(** Model of Optima/Solver.cpp (translation between the user's problem and the master
    problem), and of the copy assignments in Problem.cpp, State.cpp and Sensitivity.cpp.
    Vectors are lists; matrices handed in by the user are functions of row and column whose
    sizes are given by the dimensions; the matrices owned by the solver are modelled with
    their memory, because Matrix::resize does not initialise it. *)
From Coq Require Import List Arith Bool.
From Verif Require Import Num Index_model.
Import ListNotations.

(** Dims.hpp:26-48 *)
Record dims := Dims { d_x : nat; d_p : nat; d_be : nat; d_bg : nat; d_he : nat; d_hg : nat; d_c : nat }.

(** Solver.cpp:110-117 *)
Definition nxbar (d : dims) : nat := d_x d + d_bg d + d_hg d.
Definition ny (d : dims) : nat := d_be d + d_bg d.
Definition nz (d : dims) : nat := d_he d + d_hg d.

(** head(n), tail(n), segment(i, n) of an Eigen vector *)
Definition head {A} (n : nat) (l : list A) : list A := firstn n l.
Definition tail {A} (n : nat) (l : list A) : list A := skipn (length l - n) l.
Definition segment {A} (i n : nat) (l : list A) : list A := firstn n (skipn i l).

Section Wrapper.
(** The bounds may be read in a number type of their own: in exact arithmetic they include
    the infinities, in the code T and Bd are both double. *)
Context {T Bd : Type} {N : Num T} {NB : Num Bd}.

(** ** Matrices with memory (column-major, as Eigen's default) *)
Record mat := Mat { m_rows : nat; m_cols : nat; m_mem : nat -> T }.
Definition mget (M : mat) (i j : nat) : T := m_mem M (i + j * m_rows M).
(** Eigen PlainObjectBase::resize / DenseStorage::resize: the memory is kept when the number
    of entries does not change, otherwise fresh memory with arbitrary contents is taken *)
Definition mresize (fresh : nat -> T) (M : mat) (r c : nat) : mat :=
  if r * c =? m_rows M * m_cols M then Mat r c (m_mem M) else Mat r c fresh.
(** assignment to the block of nr rows and nc columns starting at (r0, c0) *)
Definition mput (M : mat) (r0 c0 nr nc : nat) (src : nat -> nat -> T) : mat :=
  Mat (m_rows M) (m_cols M) (fun k =>
    let i := k mod m_rows M in let j := k / m_rows M in
    if (r0 <=? i) && (i <? r0 + nr) && (c0 <=? j) && (j <? c0 + nc) then src (i - r0) (j - c0) else m_mem M k).

Definition midentity (i j : nat) : T := if i =? j then none1 else nzero.
Definition mzeros (i j : nat) : T := nzero.

(** ** Results of user functions, and the functions themselves *)

(** ConstraintFunction.hpp:33-51, ObjectiveFunction.hpp:33-58 *)
Record cres := CRes { c_val : nat -> T; c_ddx : nat -> nat -> T; c_ddp : nat -> nat -> T; c_ddc : nat -> nat -> T;
  c_basic : bool; c_ok : bool }.
Record ores := ORes { o_f : T; o_fx : nat -> T; o_fxx : nat -> nat -> T; o_fxp : nat -> nat -> T; o_fxc : nat -> nat -> T;
  o_diag : bool; o_basic : bool; o_ok : bool }.
(** A user function gets x, p, c and modifies the result passed by reference.  The options
    (which derivatives are wanted) are left out: the function may ignore them. *)
Definition cfun := list T -> list T -> list T -> cres -> cres.
Definition ofun := list T -> list T -> list T -> ores -> ores.

(** ConstraintFunction.cpp:48-58 and ObjectiveFunction.cpp:47-60 operator() *)
Definition czero : cres := CRes (fun _ => nzero) mzeros mzeros mzeros false true.
Definition ozero : ores := ORes nzero (fun _ => nzero) mzeros mzeros mzeros false false true.
Definition ccall (fn : cfun) (x p c : list T) (r : cres) : cres := fn x p c czero.
Definition ocall (fn : ofun) (x p c : list T) (r : ores) : ores := fn x p c ozero.

(** std::function members; [None] would be an empty std::function.
    ConstraintFunction.cpp:25-31, ObjectiveFunction.cpp:25-31: the default does nothing *)
Definition cfun_default : option cfun := Some (fun x p c r => r).
Definition ofun_default : option ofun := Some (fun x p c r => r).
(** ConstraintFunction.cpp:33-37, 60-65 and ObjectiveFunction.cpp likewise: construction or
    assignment from a std::function throws ([None]) when that is empty *)
Definition fun_set {A} (func : option A) : option (option A) :=
  match func with None => None | Some f => Some (Some f) end.
(** ConstraintFunction.cpp:67-70 *)
Definition initialized {A} (fn : option A) : bool := match fn with Some _ => true | None => false end.
(** calling an empty std::function would throw std::bad_function_call; unreachable after the
    checks, so any value will do *)
Definition cget (fn : option cfun) : cfun := match fn with Some f => f | None => fun _ _ _ r => r end.
Definition oget (fn : option ofun) : ofun := match fn with Some f => f | None => fun _ _ _ r => r end.

(** ** Problem.hpp:37-55.  The resources function is reduced to what it is called with. *)
Record problem := Problem {
  p_dims : dims; p_r : option (list T -> list T -> list T -> unit);
  p_f : option ofun; p_he : option cfun; p_hg : option cfun; p_v : option cfun;
  p_Aex : nat -> nat -> T; p_Aep : nat -> nat -> T; p_Agx : nat -> nat -> T; p_Agp : nat -> nat -> T;
  p_be : list T; p_bg : list T; p_xlower : list Bd; p_xupper : list Bd; p_plower : list Bd; p_pupper : list Bd;
  p_c : list T; p_bec : nat -> nat -> T; p_bgc : nat -> nat -> T }.

(** Problem.cpp:28-43 *)
Definition problem_new (d : dims) : problem :=
  Problem d (Some (fun _ _ _ => tt)) ofun_default cfun_default cfun_default cfun_default
    mzeros mzeros mzeros mzeros (repeat nzero (d_be d)) (repeat nzero (d_bg d))
    (repeat (nopp ninf) (d_x d)) (repeat ninf (d_x d)) (repeat (nopp ninf) (d_p d)) (repeat ninf (d_p d))
    (repeat nzero (d_c d)) mzeros mzeros.

(** Problem.cpp:45-62  P = Q.  The members r, f, he, hg, v are not mentioned there. *)
Definition problem_assign (P Q : problem) : problem :=
  Problem (p_dims Q) (p_r P) (p_f P) (p_he P) (p_hg P) (p_v P)
    (p_Aex Q) (p_Aep Q) (p_Agx Q) (p_Agp Q) (p_be Q) (p_bg Q) (p_xlower Q) (p_xupper Q) (p_plower Q) (p_pupper Q)
    (p_c Q) (p_bec Q) (p_bgc Q).

(** ** The objective function of the master problem, Solver.cpp:146-162 *)
Definition master_f (d : dims) (f : ofun) : ofun := fun xbar p c res =>
  let r := ocall f (head (d_x d) xbar) p c res in
  ORes (o_f r)
    (fun i => if i <? d_x d then o_fx r i else nzero)                                        (* 148, 154 *)
    (fun i j => if (i <? d_x d) && (j <? d_x d) then o_fxx r i j else nzero)                 (* 149, 155 *)
    (fun i k => if i <? d_x d then o_fxp r i k else nzero)                                   (* 150, 156 *)
    (fun i k => if i <? d_x d then o_fxc r i k else nzero)                                   (* 151, 157 *)
    (o_diag r) (o_basic r) (o_ok r).

(** ** The constraint function of the master problem, Solver.cpp:165-209 *)

(** views topRows/bottomRows, leftCols(nx) of the result, starting at row r0 *)
Definition csub (r : cres) (r0 : nat) : cres :=
  CRes (fun i => c_val r (r0 + i)) (fun i j => c_ddx r (r0 + i) j) (fun i j => c_ddp r (r0 + i) j)
       (fun i j => c_ddc r (r0 + i) j) (c_basic r) (c_ok r).
(** what was written through such a view of nr rows, nx columns; the flags are references *)
Definition cput (r : cres) (r0 nr nx : nat) (v : cres) : cres :=
  let inrows i := (r0 <=? i) && (i <? r0 + nr) in
  CRes (fun i => if inrows i then c_val v (i - r0) else c_val r i)
       (fun i j => if inrows i && (j <? nx) then c_ddx v (i - r0) j else c_ddx r i j)
       (fun i j => if inrows i then c_ddp v (i - r0) j else c_ddp r i j)
       (fun i j => if inrows i then c_ddc v (i - r0) j else c_ddc r i j)
       (c_basic v) (c_ok v).
(** writing to a block of ddx *)
Definition cfill (r : cres) (r0 c0 nr nc : nat) (src : nat -> nat -> T) : cres :=
  CRes (c_val r)
    (fun i j => if (r0 <=? i) && (i <? r0 + nr) && (c0 <=? j) && (j <? c0 + nc) then src (i - r0) (j - c0) else c_ddx r i j)
    (c_ddp r) (c_ddc r) (c_basic r) (c_ok r).

Definition master_h (d : dims) (he hg : cfun) : cfun := fun xbar p c res =>
  let x := head (d_x d) xbar in
  let xhg := tail (d_hg d) xbar in
  let re := nz d - d_hg d in                                    (* first row of bottomRows(dims.hg) *)
  let ch := nxbar d - d_hg d in                                 (* first column of rightCols(nxhg) *)
  let r1 := cfill res 0 (d_x d) (d_he d) (d_bg d) mzeros in     (* 194 he_xbg *)
  let r2 := cfill r1 0 ch (d_he d) (d_hg d) mzeros in           (* 195 he_xhg *)
  let r3 := cfill r2 re (d_x d) (d_hg d) (d_bg d) mzeros in     (* 196 hg_xbg *)
  let r4 := cfill r3 re ch (d_hg d) (d_hg d) midentity in       (* 197-198 hg_xhg *)
  let r5 := cput r4 0 (d_he d) (d_x d) (ccall he x p c (csub r4 0)) in         (* 200-202 *)
  let r6 := cput r5 re (d_hg d) (d_x d) (ccall hg x p c (csub r5 re)) in       (* 204-206 *)
  CRes (fun i => if (re <=? i) && (i <? re + d_hg d) then nadd (c_val r6 i) (nth (i - re) xhg nzero) else c_val r6 i)  (* 208 *)
    (c_ddx r6) (c_ddp r6) (c_ddc r6) (c_basic r6) (c_ok r6).

(** ** The external constraint function of the master problem, Solver.cpp:212-236 *)
Definition master_v (d : dims) (v : cfun) : cfun := fun xbar p c res =>
  let r1 := cfill res 0 (d_x d) (d_p d) (d_bg d) mzeros in                     (* 230 *)
  let r2 := cfill r1 0 (nxbar d - d_hg d) (d_p d) (d_hg d) mzeros in           (* 231 *)
  cput r2 0 (d_p d) (d_x d) (ccall v (head (d_x d) xbar) p c (csub r2 0)).     (* 233-235 *)

(** ** Bounds and matrices of the master problem *)

(** Solver.cpp:239-246, for the slacks xbg and xhg together *)
Definition master_xlower (d : dims) (xlower : list Bd) : list Bd := xlower ++ repeat (nopp ninf) (d_bg d + d_hg d).
Definition master_xupper (d : dims) (xupper : list Bd) : list Bd := xupper ++ repeat nzero (d_bg d + d_hg d).

(** A (be x n) above G: the comma initializer M << A, G *)
Definition stacked (be : nat) (A G : nat -> nat -> T) (i j : nat) : T := if i <? be then A i j else G (i - be) j.

(** Solver.cpp:261-266 *)
Definition master_Ax (fresh : nat -> T) (old : mat) (d : dims) (Aex Agx : nat -> nat -> T) : mat :=
  let M0 := mresize fresh old (ny d) (nxbar d) in
  if (m_rows M0 * m_cols M0 =? 0) then M0 else
  let M1 := mput M0 0 0 (ny d) (d_x d) (stacked (d_be d) Aex Agx) in
  let M2 := mput M1 (ny d - d_bg d) (d_x d) (d_bg d) (d_bg d) midentity in
  mput M2 0 (nxbar d - d_hg d) (ny d) (d_hg d) mzeros.
(** Solver.cpp:269-271 *)
Definition master_Ap (fresh : nat -> T) (old : mat) (d : dims) (Aep Agp : nat -> nat -> T) : mat :=
  let M0 := mresize fresh old (ny d) (d_p d) in
  if (m_rows M0 * m_cols M0 =? 0) then M0 else mput M0 0 0 (ny d) (d_p d) (stacked (d_be d) Aep Agp).
(** Solver.cpp:277-279 *)
Definition master_bc (fresh : nat -> T) (old : mat) (d : dims) (bec bgc : nat -> nat -> T) : mat :=
  let M0 := mresize fresh old (ny d) (d_c d) in
  mput (mput M0 0 0 (d_be d) (d_c d) bec) (ny d - d_bg d) 0 (d_bg d) (d_c d) bgc.

(** MasterProblem.hpp *)
Record master := Master {
  ms_nx : nat; ms_np : nat; ms_ny : nat; ms_nz : nat;
  ms_r : option (list T -> list T -> list T -> unit); ms_f : ofun; ms_h : cfun; ms_v : cfun;
  ms_Ax : mat; ms_Ap : mat; ms_b : list T; ms_xlower : list Bd; ms_xupper : list Bd; ms_plower : list Bd; ms_pupper : list Bd;
  ms_c : list T; ms_bc : mat }.

(** Solver.cpp:106-280.  [None]: the function throws.  [oAx], [oAp], [obc]: the matrices the
    solver holds from before; [f1], [f2], [f3]: the contents of fresh memory. *)
Definition update_master (f1 f2 f3 : nat -> T) (oAx oAp obc : mat) (P : problem) : option master :=
  let d := p_dims P in
  if negb (initialized (p_f P)) then None                                              (* 119-122 *)
  else if (0 <? d_he d) && negb (initialized (p_he P)) then None                       (* 124-127 *)
  else if (0 <? d_hg d) && negb (initialized (p_hg P)) then None                       (* 129-132 *)
  else if (0 <? d_p d) && negb (initialized (p_v P)) then None                         (* 134-137 *)
  else Some (Master (nxbar d) (d_p d) (ny d) (nz d)                                    (* 140 *)
    (p_r P)                                                                            (* 143 *)
    (master_f d (oget (p_f P))) (master_h d (cget (p_he P)) (cget (p_hg P))) (master_v d (cget (p_v P)))
    (master_Ax f1 oAx d (p_Aex P) (p_Agx P)) (master_Ap f2 oAp d (p_Aep P) (p_Agp P))
    (p_be P ++ p_bg P)                                                                 (* 249-250 *)
    (master_xlower d (p_xlower P)) (master_xupper d (p_xupper P)) (p_plower P) (p_pupper P)
    (p_c P) (master_bc f3 obc d (p_bec P) (p_bgc P))).

(** The calls of the user's functions made by one evaluation at xbar
    (ResidualFunction.cpp:157-160 through Solver.cpp:143-236), with the x they receive *)
Inductive callee := Call_r | Call_f | Call_he | Call_hg | Call_v.
Definition user_calls (d : dims) (xbar : list T) : list (callee * list T) :=
  let x := head (d_x d) xbar in
  [(Call_r, xbar);                                                                     (* 157, Solver.cpp:143 *)
   (Call_f, x)]                                                                        (* 158, Solver.cpp:153, 161 *)
  ++ (if 0 <? nz d then [(Call_he, x); (Call_hg, x)] else [])                          (* 159, Solver.cpp:168, 202, 206 *)
  ++ (if 0 <? d_p d then [(Call_v, x)] else []).                                       (* 160, Solver.cpp:215, 235 *)

(** ** State.hpp:31-46 *)
Record ustate := UState { s_dims : dims; s_x : list T; s_p : list T; s_ye : list T; s_yg : list T; s_ze : list T; s_zg : list T;
  s_s : list T; s_xbg : list T; s_xhg : list T;
  s_js : list nat; s_ju : list nat; s_jlu : list nat; s_juu : list nat; s_jb : list nat; s_jn : list nat }.
(** MasterState.hpp *)
Record mstate := MState { t_x : list T; t_p : list T; t_w : list T; t_s : list T;
  t_js : list nat; t_ju : list nat; t_jlu : list nat; t_juu : list nat; t_jb : list nat; t_jn : list nat }.

(** State.cpp:36-56 *)
Definition state_assign (P Q : ustate) : ustate :=
  UState (s_dims Q) (s_x Q) (s_p Q) (s_ye Q) (s_yg Q) (s_ze Q) (s_zg Q) (s_s Q) (s_xbg Q) (s_xhg Q)
    (s_js Q) (s_ju Q) (s_jlu Q) (s_juu Q) (s_jb Q) (s_jn Q).

(** Solver.cpp:283-295 *)
Definition to_master (m : mstate) (s : ustate) : mstate :=
  MState (s_x s ++ s_xbg s ++ s_xhg s) (s_p s) (s_ye s ++ s_yg s ++ s_ze s ++ s_zg s) (t_s m)
    (t_js m) (t_ju m) (t_jlu m) (t_juu m) (t_jb m) (t_jn m).

(** Solver.cpp:310-320 *)
Definition user_indices (part : partition_impl) (d : dims) (l : list nat) : list nat :=
  if 0 <? d_bg d + d_hg d then
    let '(l', k) := moveRightIf part l (fun i => d_x d <=? i) in head k l'
  else head (length l) l.

(** Solver.cpp:298-328 *)
Definition of_master (part : partition_impl) (d : dims) (m : mstate) (s : ustate) : ustate :=
  UState (s_dims s) (head (d_x d) (t_x m)) (t_p m)
    (head (d_be d) (head (ny d) (t_w m))) (tail (d_bg d) (head (ny d) (t_w m)))
    (head (d_he d) (tail (nz d) (t_w m))) (tail (d_hg d) (tail (nz d) (t_w m)))
    (head (d_x d) (t_s m)) (segment (d_x d) (d_bg d) (t_x m)) (tail (d_hg d) (t_x m))
    (user_indices part d (t_js m)) (user_indices part d (t_ju m)) (user_indices part d (t_jlu m))
    (user_indices part d (t_juu m)) (user_indices part d (t_jb m)) (user_indices part d (t_jn m)).

(** ** Sensitivity.hpp:31-40, rows as lists *)
Record sens := Sens { e_dims : dims; e_xc : list (list T); e_pc : list (list T); e_yec : list (list T); e_ygc : list (list T);
  e_zec : list (list T); e_zgc : list (list T); e_sc : list (list T); e_xbgc : list (list T); e_xhgc : list (list T) }.
(** MasterSensitivity.hpp *)
Record msens := MSens { g_xc : list (list T); g_pc : list (list T); g_wc : list (list T); g_sc : list (list T) }.

(** Sensitivity.cpp:39-52 *)
Definition sens_assign (P Q : sens) : sens :=
  Sens (e_dims Q) (e_xc Q) (e_pc Q) (e_yec Q) (e_ygc Q) (e_zec Q) (e_zgc Q) (e_sc Q) (e_xbgc Q) (e_xhgc Q).

(** Solver.cpp:331-343 *)
Definition of_msens (d : dims) (g : msens) : sens :=
  Sens d (head (d_x d) (g_xc g)) (g_pc g)
    (head (d_be d) (head (ny d) (g_wc g))) (tail (d_bg d) (head (ny d) (g_wc g)))
    (head (d_he d) (tail (nz d) (g_wc g))) (tail (d_hg d) (tail (nz d) (g_wc g)))
    (head (d_x d) (g_sc g)) (segment (d_x d) (d_bg d) (g_xc g)) (tail (d_hg d) (g_xc g)).

(** ** Names for the output, Solver.cpp:66-103 *)
Context {Name : Type} (num bgnum hgnum : nat -> Name).   (* std::to_string(i), "bg:" + ..., "hg:" + ... *)
Definition names_ok (names : list Name) (n : nat) : bool := (length names =? 0) || (length names =? n).   (* 71-73 *)
Definition names_or (names : list Name) (def : nat -> Name) (n : nat) : list Name :=
  if length names =? 0 then map def (seq 0 n) else names.
(** [None]: throws; the result is xnames of the options given to the master solver *)
Definition master_names (active : bool) (d : dims) (xnames xbgnames xhgnames : list Name) : option (list Name) :=
  if active then
    if negb (names_ok xnames (d_x d) && names_ok xbgnames (d_bg d) && names_ok xhgnames (d_hg d)) then None
    else Some (names_or xnames num (d_x d) ++ names_or xbgnames bgnum (d_bg d) ++ names_or xhgnames hgnum (d_hg d))
  else Some xnames.
End Wrapper.
Arguments mat : clear implicits.
Arguments cres : clear implicits.
Arguments ores : clear implicits.
Arguments cfun : clear implicits.
Arguments ofun : clear implicits.
Arguments problem : clear implicits.
Arguments master : clear implicits.
Arguments ustate : clear implicits.
Arguments mstate : clear implicits.
Arguments sens : clear implicits.
Arguments msens : clear implicits.
