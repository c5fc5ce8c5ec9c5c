(** Model of LinearSolverFullspace.cpp, LinearSolverNullspace.cpp,
    LinearSolverRangespace.cpp and LinearSolver.cpp in exact arithmetic over a field.

    Dimensions: nb = nbs = nbe+nbi basic and nn = nns = nne+nni non-basic stable
    variables, np parameters.  Blocks with a zero dimension need no case distinction:
    the guards if(nbs), if(np), ... of the code only avoid empty comma initializers.
    Each solve takes the factors [f] held by the LU object after lu.decompose(M), M being
    the matrix assembled by decompose; see LU_model.v for lu.solve. *)
From mathcomp Require Import all_ssreflect all_fingroup all_algebra.
From Verif Require Import LU_model.
Set Implicit Arguments.
Unset Strict Implicit.
Unset Printing Implicit Defensive.
Local Open Scope ring_scope.
Import GRing.Theory.

(** CanonicalMatrix.hpp:30-44: the blocks used by the linear solvers *)
Record cmat (F : fieldType) (nb nn np : nat) := CMat {
  cHss : 'M[F]_(nb + nn); cHsp : 'M[F]_(nb + nn, np);
  cVps : 'M[F]_(np, nb + nn); cVpp : 'M[F]_np;
  cS : 'M[F]_(nb, nn); cSp : 'M[F]_(nb, np) }.

(** CanonicalVector.hpp:28-33, without xu *)
Record cvec (F : fieldType) (nb nn np : nat) := CVec {
  vxs : 'cV[F]_(nb + nn); vp : 'cV[F]_np; vw : 'cV[F]_nb }.

Section Fullspace.
Variables (F : fieldType) (nb nn np : nat).
(** LinearSolverFullspace.cpp:40-87 decompose: the matrix M *)
Definition full_matrix (J : cmat F nb nn np) : 'M[F]_(nb + (nn + (np + nb))) :=
  col_mx (row_mx (ulsubmx (cHss J)) (row_mx (ursubmx (cHss J)) (row_mx (usubmx (cHsp J)) 1%:M)))       (* 81 *)
 (col_mx (row_mx (dlsubmx (cHss J)) (row_mx (drsubmx (cHss J)) (row_mx (dsubmx (cHsp J)) (cS J)^T)))   (* 82 *)
 (col_mx (row_mx (lsubmx (cVps J)) (row_mx (rsubmx (cVps J)) (row_mx (cVpp J) 0)))                     (* 83 *)
         (row_mx 1%:M (row_mx (cS J) (row_mx (cSp J) 0))))).                                           (* 84 *)

(** LinearSolverFullspace.cpp:89-121 solve *)
Definition full_rhs (a : cvec F nb nn np) : 'cV[F]_(nb + (nn + (np + nb))) :=
  col_mx (usubmx (vxs a)) (col_mx (dsubmx (vxs a)) (col_mx (vp a) (vw a))).                            (* 114 *)
Definition full_result (r : 'cV[F]_(nb + (nn + (np + nb)))) : cvec F nb nn np :=
  CVec (col_mx (usubmx r) (usubmx (dsubmx r))) (usubmx (dsubmx (dsubmx r))) (dsubmx (dsubmx (dsubmx r))). (* 105-108, 118-120 *)
End Fullspace.

Section Nullspace.
Variables (F : fieldType) (nbe nbi nn np : nat).
Let nb := (nbe + nbi)%N.

(** LinearSolverNullspace.cpp:31-42: the workspace left by decompose *)
Record nullws := NullWS {
  nHbibe : 'M[F]_(nbi, nbe); nHbibi : 'M[F]_nbi; nHbebi : 'M[F]_(nbe, nbi); nHnsbi : 'M[F]_(nn, nbi);
  nVpbi : 'M[F]_(np, nbi);
  nHbins : 'M[F]_(nbi, nn); nHbip : 'M[F]_(nbi, np);
  nSbins : 'M[F]_(nbi, nn); nSbip : 'M[F]_(nbi, np);
  nM : 'M[F]_(nbe + (nn + (np + nbe))) }.

(** LinearSolverNullspace.cpp:47-147 decompose *)
Definition null_decompose (J : cmat F nb nn np) : nullws :=
  let Hbsbs := ulsubmx (cHss J) in let Hbsns := ursubmx (cHss J) in      (* 76-79 *)
  let Hnsbs := dlsubmx (cHss J) in let Hnsns0 := drsubmx (cHss J) in
  let Hbebe := ulsubmx Hbsbs in let Hbebi := ursubmx Hbsbs in            (* 81-84 *)
  let Hbibe := dlsubmx Hbsbs in let Hbibi := drsubmx Hbsbs in
  let Hbens0 := usubmx Hbsns in let Hbins0 := dsubmx Hbsns in            (* 86-87 *)
  let Hnsbe0 := lsubmx Hnsbs in let Hnsbi := rsubmx Hnsbs in             (* 89-90 *)
  let Hbsp := usubmx (cHsp J) in let Hnsp0 := dsubmx (cHsp J) in         (* 92-93 *)
  let Hbep0 := usubmx Hbsp in let Hbip0 := dsubmx Hbsp in                (* 95-96 *)
  let Vpbs := lsubmx (cVps J) in let Vpns0 := rsubmx (cVps J) in         (* 98-99 *)
  let Vpbe := lsubmx Vpbs in let Vpbi := rsubmx Vpbs in                  (* 101-102 *)
  let Sbens := usubmx (cS J) in let Sbins := dsubmx (cS J) in            (* 107-108 *)
  let Sbep := usubmx (cSp J) in let Sbip := dsubmx (cSp J) in            (* 110-111 *)
  let Hbins := Hbins0 - Hbibi *m Sbins in                                (* 127 *)
  let Hbens := Hbens0 - Hbebi *m Sbins in                                (* 128 *)
  let Hnsns1 := Hnsns0 - Hnsbi *m Sbins in                               (* 129 *)
  let Vpns := Vpns0 - Vpbi *m Sbins in                                   (* 130 *)
  let Hbip := Hbip0 - Hbibi *m Sbip in                                   (* 132 *)
  let Hbep := Hbep0 - Hbebi *m Sbip in                                   (* 133 *)
  let Hnsp1 := Hnsp0 - Hnsbi *m Sbip in                                  (* 134 *)
  let Vpp := cVpp J - Vpbi *m Sbip in                                    (* 135 *)
  let Hnsbe := Hnsbe0 - Sbins^T *m Hbibe in                              (* 137 *)
  let Hnsns := Hnsns1 - Sbins^T *m Hbins in                              (* 138 *)
  let Hnsp := Hnsp1 - Sbins^T *m Hbip in                                 (* 139 *)
  let M := col_mx (row_mx Hbebe (row_mx Hbens (row_mx Hbep 1%:M)))       (* 141 *)
          (col_mx (row_mx Hnsbe (row_mx Hnsns (row_mx Hnsp Sbens^T)))    (* 142 *)
          (col_mx (row_mx Vpbe (row_mx Vpns (row_mx Vpp 0)))             (* 143 *)
                  (row_mx 1%:M (row_mx Sbens (row_mx Sbep 0))))) in      (* 144 *)
  NullWS Hbibe Hbibi Hbebi Hnsbi Vpbi Hbins Hbip Sbins Sbip M.

(** LinearSolverNullspace.cpp:149-241 solve: the right-hand side (197-216, 228) ... *)
Definition null_abi (k : nullws) (a : cvec F nb nn np) : 'cV[F]_nbi :=
  dsubmx (usubmx (vxs a)) - nHbibi k *m dsubmx (vw a).                   (* 211 *)
Definition null_rhs (k : nullws) (a : cvec F nb nn np) : 'cV[F]_(nbe + (nn + (np + nbe))) :=
  let abs := usubmx (vxs a) in let ans0 := dsubmx (vxs a) in             (* 197-207 *)
  let abe0 := usubmx abs in
  let awbe := usubmx (vw a) in let awbi := dsubmx (vw a) in              (* 203-209 *)
  let abe := abe0 - nHbebi k *m awbi in                                  (* 212 *)
  let ans1 := ans0 - nHnsbi k *m awbi in                                 (* 213 *)
  let ap := vp a - nVpbi k *m awbi in                                    (* 214 *)
  let ans := ans1 - (nSbins k)^T *m null_abi k a in                      (* 216 *)
  col_mx abe (col_mx ans (col_mx ap awbe)).                              (* 228 *)

(** ... and the recovery of the other unknowns from the solution r (223-240).  dxbi and
    dwbi overwrite awbi and abi; each statement reads the old value before writing,
    entry by entry. *)
Definition null_finish (k : nullws) (a : cvec F nb nn np) (r : 'cV[F]_(nbe + (nn + (np + nbe)))) : cvec F nb nn np :=
  let awbi := dsubmx (vw a) in
  let dxbe := usubmx r in let dxns := usubmx (dsubmx r) in               (* 223-226 *)
  let dp := usubmx (dsubmx (dsubmx r)) in let dwbe := dsubmx (dsubmx (dsubmx r)) in
  let dxbi := awbi - nSbins k *m dxns - nSbip k *m dp in                 (* 235 *)
  let dwbi := null_abi k a - nHbibe k *m dxbe - nHbins k *m dxns - nHbip k *m dp in (* 236 *)
  CVec (col_mx (col_mx dxbe dxbi) dxns) dp (col_mx dwbe dwbi).           (* 238-240 *)

End Nullspace.

Section Rangespace.
Variables (F : fieldType) (nbe nbi nne nni np : nat).
Let nb := (nbe + nbi)%N.
Let nn := (nne + nni)%N.

(** entrywise inverse and diagonal matrices (eigenx/Eigen/Functions:159-169) *)
Definition einv k (v : 'cV[F]_k) : 'cV[F]_k := map_mx (fun x => x^-1) v.
Definition dg k (v : 'cV[F]_k) : 'M[F]_k := diag_mx v^T.
Definition diagof k (M : 'M[F]_k) : 'cV[F]_k := \col_i M i i.

(** LinearSolverRangespace.cpp:49-198 decompose: the matrix M, in the order (p, xbi, wbe, xni) *)
Definition range_Hs (J : cmat F nb nn np) : 'cV[F]_(nb + nn) := diagof (cHss J).  (* 97 *)
Definition range_Hbebe J : 'cV[F]_nbe := usubmx (usubmx (range_Hs J)).            (* 99-104 *)
Definition range_Hbibi J : 'cV[F]_nbi := dsubmx (usubmx (range_Hs J)).
Definition range_Hnene J : 'cV[F]_nne := usubmx (dsubmx (range_Hs J)).
Definition range_Hnini J : 'cV[F]_nni := dsubmx (dsubmx (range_Hs J)).
Definition range_T (J : cmat F nb nn np) : 'M[F]_nb :=                            (* 131, with barSbsne of 125-126 *)
  lsubmx (cS J) *m (lsubmx (cS J) *m dg (einv (range_Hnene J)))^T.
Definition range_matrix (J : cmat F nb nn np) : 'M[F]_(np + (nbi + (nbe + nni))) :=
  let Sbene := usubmx (lsubmx (cS J)) in let Sbeni := usubmx (rsubmx (cS J)) in   (* 66-69 *)
  let Sbine := dsubmx (lsubmx (cS J)) in let Sbini := dsubmx (rsubmx (cS J)) in
  let Sbep := usubmx (cSp J) in let Sbip := dsubmx (cSp J) in                     (* 73-74 *)
  let Hbep := usubmx (usubmx (cHsp J)) in let Hbip := dsubmx (usubmx (cHsp J)) in (* 76-81 *)
  let Hnep := usubmx (dsubmx (cHsp J)) in let Hnip := dsubmx (dsubmx (cHsp J)) in
  let Vpbe := lsubmx (lsubmx (cVps J)) in let Vpbi := rsubmx (lsubmx (cVps J)) in (* 84-89 *)
  let Vpne := lsubmx (rsubmx (cVps J)) in let Vpni := rsubmx (rsubmx (cVps J)) in
  let invHbebe := dg (einv (range_Hbebe J)) in let invHnene := dg (einv (range_Hnene J)) in (* 106-107 *)
  let barHbep := invHbebe *m Hbep in let barHnep := invHnene *m Hnep in           (* 121-122 *)
  let barVpbe := Vpbe *m invHbebe in let barVpne := Vpne *m invHnene in           (* 123-124 *)
  let barSbene := Sbene *m invHnene in let barSbine := Sbine *m invHnene in       (* 125-126 *)
  let Tbibi := drsubmx (range_T J) in let Tbibe := dlsubmx (range_T J) in         (* 133-136 *)
  let Tbebi := ursubmx (range_T J) in let Tbebe := ulsubmx (range_T J) in
  let DHbibi := dg (range_Hbibi J) in
  let M11 := cVpp J - Vpbe *m barHbep - Vpne *m barHnep + barVpne *m Sbine^T *m Hbip in (* 177 *)
  let M12 := Vpbi + barVpne *m Sbine^T *m DHbibi in                               (* 178 *)
  let M13 := - barVpbe - barVpne *m Sbene^T in                                    (* 179 *)
  let M14 := Vpni in                                                              (* 180 *)
  let M21 := Sbip - barSbine *m Hnep + Tbibi *m Hbip in                           (* 182 *)
  let M22 := 1%:M + Tbibi *m DHbibi in                                            (* 183 *)
  let M23 := - Tbibe in                                                           (* 184 *)
  let M24 := Sbini in                                                             (* 185 *)
  let M31 := Sbep - barHbep - barSbene *m Hnep + Tbebi *m Hbip in                 (* 187 *)
  let M32 := Tbebi *m DHbibi in                                                   (* 188 *)
  let M33 := dg (einv (range_Hbebe J)) + Tbebe in                                 (* 189 *)
  let M34 := Sbeni in                                                             (* 190 *)
  let M41 := Hnip - Sbini^T *m Hbip in                                            (* 192 *)
  let M42 := - (Sbini^T *m DHbibi) in                                             (* 193 *)
  let M43 := Sbeni^T in                                                           (* 194 *)
  let M44 := dg (range_Hnini J) in                                                (* 195 *)
  col_mx (row_mx M11 (row_mx M12 (row_mx M13 M14)))
 (col_mx (row_mx M21 (row_mx M22 (row_mx M23 M24)))
 (col_mx (row_mx M31 (row_mx M32 (row_mx M33 M34)))
         (row_mx M41 (row_mx M42 (row_mx M43 M44))))).

(** LinearSolverRangespace.cpp:200-313 solve; x/h is entrywise division.  The
    right-hand side (259-283, 298) ... *)
Definition range_abe (J : cmat F nb nn np) (a : cvec F nb nn np) : 'cV[F]_nbe :=
  dg (einv (range_Hbebe J)) *m usubmx (usubmx (vxs a)).                           (* 277 *)
Definition range_ane (J : cmat F nb nn np) (a : cvec F nb nn np) : 'cV[F]_nne :=
  dg (einv (range_Hnene J)) *m usubmx (dsubmx (vxs a)).                           (* 278 *)
Definition range_rhs (J : cmat F nb nn np) (a : cvec F nb nn np) : 'cV[F]_(np + (nbi + (nbe + nni))) :=
  let Sbene := usubmx (lsubmx (cS J)) in                                          (* 217-220 *)
  let Sbine := dsubmx (lsubmx (cS J)) in let Sbini := dsubmx (rsubmx (cS J)) in
  let Vpbe := lsubmx (lsubmx (cVps J)) in let Vpne := lsubmx (rsubmx (cVps J)) in (* 237-238 *)
  let barVpne := Vpne *m dg (einv (range_Hnene J)) in                             (* 251 *)
  let Tbibi := drsubmx (range_T J) in let Tbebi := ursubmx (range_T J) in         (* 254-256 *)
  let abi := dsubmx (usubmx (vxs a)) in                                           (* 259-273 *)
  let awbe0 := usubmx (vw a) in let awbi0 := dsubmx (vw a) in
  let abe := range_abe J a in let ane := range_ane J a in
  let ap := vp a - Vpbe *m abe - Vpne *m ane + barVpne *m Sbine^T *m abi in       (* 280 *)
  let awbi := awbi0 - Sbine *m ane + Tbibi *m abi in                              (* 281 *)
  let awbe := awbe0 - abe - Sbene *m ane + Tbebi *m abi in                        (* 282 *)
  let ani := dsubmx (dsubmx (vxs a)) - Sbini^T *m abi in                          (* 283 *)
  col_mx ap (col_mx awbi (col_mx awbe ani)).                                      (* 298 *)

(** ... and the recovery of the other unknowns (293-312) *)
Definition range_finish (J : cmat F nb nn np) (a : cvec F nb nn np) (r : 'cV[F]_(np + (nbi + (nbe + nni)))) : cvec F nb nn np :=
  let Sbene := usubmx (lsubmx (cS J)) in let Sbine := dsubmx (lsubmx (cS J)) in
  let Hbep := usubmx (usubmx (cHsp J)) in let Hbip := dsubmx (usubmx (cHsp J)) in (* 229-231 *)
  let Hnep := usubmx (dsubmx (cHsp J)) in
  let iHbebe := dg (einv (range_Hbebe J)) in let iHnene := dg (einv (range_Hnene J)) in
  let p := usubmx r in let xbi := usubmx (dsubmx r) in                            (* 293-296 *)
  let wbe := usubmx (dsubmx (dsubmx r)) in let xni := dsubmx (dsubmx (dsubmx r)) in
  let wbi := dsubmx (usubmx (vxs a)) - Hbip *m p - dg (range_Hbibi J) *m xbi in   (* 306 *)
  let xbe := range_abe J a - iHbebe *m (Hbep *m p + wbe) in                       (* 307 *)
  let xne := range_ane J a - iHnene *m (Hnep *m p + Sbene^T *m wbe + Sbine^T *m wbi) in (* 308 *)
  CVec (col_mx (col_mx xbe xbi) (col_mx xne xni)) p (col_mx wbe wbi).             (* 310-312 *)

End Rangespace.

(** The three solve functions: lu.solve between the two halves above *)
Definition fullspace (F : realFieldType) (nb nn np : nat) (eps : F) (f : lufac F (nb + (nn + (np + nb)))) (a : cvec F nb nn np) : option (cvec F nb nn np) :=
  omap (@full_result F nb nn np) (lu_solve eps f (full_rhs a)).                                                      (* 116 *)
Definition nullspace (F : realFieldType) (nbe nbi nn np : nat) (eps : F) (f : lufac F (nbe + (nn + (np + nbe)))) (J : cmat F (nbe + nbi) nn np) (a : cvec F (nbe + nbi) nn np) : option (cvec F (nbe + nbi) nn np) :=
  let k := null_decompose J in
  omap (null_finish k a) (lu_solve eps f (null_rhs k a)).                  (* 230 *)
Definition rangespace (F : realFieldType) (nbe nbi nne nni np : nat) (eps : F) (f : lufac F (np + (nbi + (nbe + nni)))) (J : cmat F (nbe + nbi) (nne + nni) np) (a : cvec F (nbe + nbi) (nne + nni) np) : option (cvec F (nbe + nbi) (nne + nni) np) :=
  omap (range_finish J a) (lu_solve eps f (range_rhs J a)).               (* 300 *)
