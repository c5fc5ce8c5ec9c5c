(** Model of minimizeGoldenSectionSearch and minimizeBrent (Optima/Utils.cpp).
    The user's function is a pure function of its argument; every call is
    recorded, so a run returns the points where f was evaluated, in order. *)
From Coq Require Import List Arith Bool ZArith.
Import ListNotations.
From Verif Require Import Num.

Section Minimize.
Context {T : Type} {N : Num T}.
Variable f : T -> T.

(** ** Golden section, Utils.cpp:296-350 *)

(** Utils.cpp:303: phi = 0.61803398875 *)
Definition phi : T := ndiv (nofZ 61803398875) (nofZ 100000000000).

Record gs_state := { gs_a : T; gs_b : T; gs_c : T; gs_d : T; gs_fc : T; gs_fd : T; gs_evals : list T }.

(** Utils.cpp:305-315, on [0,1]; [g] is the function evaluated *)
Definition gs_init (g : T -> T) : gs_state :=
  let c := nsub none1 phi in
  {| gs_a := nzero; gs_b := none1; gs_c := c; gs_d := phi;
     gs_fc := g c; gs_fd := g phi; gs_evals := [c; phi] |}.

(** Utils.cpp:319-334, one iteration *)
Definition gs_step (g : T -> T) (s : gs_state) : gs_state :=
  if nltb (gs_fc s) (gs_fd s) then
    let b := gs_d s in
    let d := gs_c s in
    let c := nsub b (nmul phi (nsub b (gs_a s))) in
    {| gs_a := gs_a s; gs_b := b; gs_c := c; gs_d := d; gs_fc := g c; gs_fd := gs_fc s;
       gs_evals := gs_evals s ++ [c] |}
  else
    let a := gs_c s in
    let c := gs_d s in
    let d := nadd a (nmul phi (nsub (gs_b s) a)) in
    {| gs_a := a; gs_b := gs_b s; gs_c := c; gs_d := d; gs_fc := gs_fd s; gs_fd := g d;
       gs_evals := gs_evals s ++ [d] |}.

(** Utils.cpp:317: the loop runs while |c - d| > tol.  [None]: still running when
    the fuel is spent. *)
Definition gs_continue (tol : T) (s : gs_state) : bool :=
  ngtb (nabs (nsub (gs_c s) (gs_d s))) tol.
Fixpoint gs_loop (fuel : nat) (g : T -> T) (tol : T) (s : gs_state) : option gs_state :=
  if gs_continue tol s then
    match fuel with 0 => None | S fuel' => gs_loop fuel' g tol (gs_step g s) end
  else Some s.

(** Utils.cpp:296-338: result and evaluated points *)
Definition goldenUnit (fuel : nat) (g : T -> T) (tol : T) : option (T * list T) :=
  let c := nsub none1 phi in
  if nltb (nabs (nsub c phi)) tol then Some (ndiv (nadd none1 nzero) (nofZ 2), [])
  else match gs_loop fuel g tol (gs_init g) with
       | None => None
       | Some s => Some (ndiv (nadd (gs_b s) (gs_a s)) (nofZ 2), gs_evals s)
       end.

(** Utils.cpp:341-350: [a + x*(b-a)] maps the unit interval to [a,b] *)
Definition gs_map (a b x : T) : T := nadd a (nmul x (nsub b a)).
Definition minimizeGoldenSectionSearch (fuel : nat) (a b tol : T) : option (T * list T) :=
  match goldenUnit fuel (fun x => f (gs_map a b x)) tol with
  | None => None
  | Some (xmin, evals) => Some (gs_map a b xmin, map (gs_map a b) evals)
  end.

(** ** Brent, Utils.cpp:352-471 *)

(** Utils.cpp:368: golden = 0.3819660 *)
Definition golden : T := ndiv (nofZ 3819660) (nofZ 10000000).

Record br_state := {
  br_min : T; br_max : T; br_x : T; br_w : T; br_v : T;
  br_fx : T; br_fw : T; br_fv : T; br_delta : T; br_delta2 : T; br_evals : list T }.

(** Utils.cpp:370-372 *)
Definition br_init (min max : T) : br_state :=
  let fx := f max in
  {| br_min := min; br_max := max; br_x := max; br_w := max; br_v := max;
     br_fx := fx; br_fw := fx; br_fv := fx; br_delta := nzero; br_delta2 := nzero;
     br_evals := [max] |}.

Definition two : T := nofZ 2.
Definition br_mid (s : br_state) : T := ndiv (nadd (br_min s) (br_max s)) two.
Definition br_fract1 (tol : T) (s : br_state) : T :=
  nadd (nmul tol (nabs (br_x s))) (ndiv tol (nofZ 4)).
Definition br_fract2 (tol : T) (s : br_state) : T := nmul two (br_fract1 tol s).

(** Utils.cpp:385: the break test *)
Definition br_done (tol : T) (s : br_state) : bool :=
  nleb (nabs (nsub (br_x s) (br_mid s)))
       (nsub (br_fract2 tol s) (ndiv (nsub (br_max s) (br_min s)) two)).

(** Utils.cpp:405-406 and 421-422: golden section step (delta, delta2) *)
Definition br_golden (s : br_state) : T * T :=
  let delta2 := if ngeb (br_x s) (br_mid s) then nsub (br_min s) (br_x s) else nsub (br_max s) (br_x s) in
  (nmul golden delta2, delta2).

(** Utils.cpp:388-423: the new (delta, delta2) *)
Definition br_delta_new (tol : T) (s : br_state) : T * T :=
  let fract1 := br_fract1 tol s in
  let fract2 := br_fract2 tol s in
  let mid := br_mid s in
  let x := br_x s in
  if ngtb (nabs (br_delta2 s)) fract1 then
    let r := nmul (nsub x (br_w s)) (nsub (br_fx s) (br_fv s)) in
    let q := nmul (nsub x (br_v s)) (nsub (br_fx s) (br_fw s)) in
    let p := nsub (nmul (nsub x (br_v s)) q) (nmul (nsub x (br_w s)) r) in
    let q := nmul two (nsub q r) in
    let p := if ngtb q nzero then nopp p else p in
    let q := nabs q in
    let td := br_delta2 s in
    let delta2 := br_delta s in
    if ngeb (nabs p) (nabs (ndiv (nmul q td) two))
       || nleb p (nmul q (nsub (br_min s) x))
       || ngeb p (nmul q (nsub (br_max s) x))
    then br_golden s
    else
      let delta := ndiv p q in
      let u := nadd x delta in
      let delta := if nltb (nsub u (br_min s)) fract2 || nltb (nsub (br_max s) u) fract2
                   then (if nltb (nsub mid x) nzero then nopp (nabs fract1) else nabs fract1)
                   else delta in
      (delta, delta2)
  else br_golden s.

(** Utils.cpp:425: the next evaluation point *)
Definition br_u (tol : T) (s : br_state) : T :=
  let fract1 := br_fract1 tol s in
  let delta := fst (br_delta_new tol s) in
  if ngeb (nabs delta) fract1 then nadd (br_x s) delta
  else if ngtb delta nzero then nadd (br_x s) (nabs fract1) else nsub (br_x s) (nabs fract1).

(** Utils.cpp:378-464: one iteration that does not break *)
Definition br_step (tol : T) (s : br_state) : br_state :=
  let '(delta, delta2) := br_delta_new tol s in
  let u := br_u tol s in
  let fu := f u in
  let x := br_x s in
  if nleb fu (br_fx s) then
    {| br_min := if ngeb u x then x else br_min s;
       br_max := if ngeb u x then br_max s else x;
       br_x := u; br_w := x; br_v := br_w s;
       br_fx := fu; br_fw := br_fx s; br_fv := br_fw s;
       br_delta := delta; br_delta2 := delta2; br_evals := br_evals s ++ [u] |}
  else
    let min := if nltb u x then u else br_min s in
    let max := if nltb u x then br_max s else u in
    if nleb fu (br_fw s) || neqb (br_w s) x then
      {| br_min := min; br_max := max; br_x := x; br_w := u; br_v := br_w s;
         br_fx := br_fx s; br_fw := fu; br_fv := br_fw s;
         br_delta := delta; br_delta2 := delta2; br_evals := br_evals s ++ [u] |}
    else if nleb fu (br_fv s) || neqb (br_v s) x || neqb (br_v s) (br_w s) then
      {| br_min := min; br_max := max; br_x := x; br_w := br_w s; br_v := u;
         br_fx := br_fx s; br_fw := br_fw s; br_fv := fu;
         br_delta := delta; br_delta2 := delta2; br_evals := br_evals s ++ [u] |}
    else
      {| br_min := min; br_max := max; br_x := x; br_w := br_w s; br_v := br_v s;
         br_fx := br_fx s; br_fw := br_fw s; br_fv := br_fv s;
         br_delta := delta; br_delta2 := delta2; br_evals := br_evals s ++ [u] |}.

(** Utils.cpp:376-466: do { ... } while(--count) with a 32-bit unsigned count.
    [None]: still running when the fuel is spent. *)
Definition dec32 (count : Z) : Z := ((count - 1) mod 2 ^ 32)%Z.
Fixpoint br_loop (fuel : nat) (tol : T) (count : Z) (s : br_state) : option br_state :=
  match fuel with
  | 0 => None
  | S fuel' =>
      if br_done tol s then Some s
      else
        let s' := br_step tol s in
        let count' := dec32 count in
        if Z.eqb count' 0 then Some s' else br_loop fuel' tol count' s'
  end.

(** Utils.cpp:352-471: result and evaluated points; 0 <= maxiters < 2^32 *)
Definition minimizeBrent (fuel : nat) (min max tol : T) (maxiters : Z) : option (T * list T) :=
  match br_loop fuel tol maxiters (br_init min max) with
  | None => None
  | Some s => Some (br_x s, br_evals s)
  end.
End Minimize.
