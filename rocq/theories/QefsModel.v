(** Model of the quasi-Newton Hessians of models estimated with method "qEFS": scaling of the initial
    matrix, implicit covariance matrix and effective degrees of freedom, explicit Hessian and its
    factor, blocks of second derivatives known in advance (gamm_solvers.py, compact_rep.py,
    exp_fam.py).  Matrices are mathcomp matrices over a real closed field; floats are exact. *)
From mathcomp Require Import all_ssreflect all_algebra.
From Verif Require Import MatModel.
Set Implicit Arguments.
Unset Strict Implicit.
Unset Printing Implicit Defensive.
Import Order.TTheory GRing.Theory Num.Theory.
Local Open Scope ring_scope.

(** ** Columns of second derivatives, GSMMFamily.jhessian, exp_fam.py:3739-3835

    [Hj j r] is entry r of jcolhessian(j), exp_fam.py:3686-3737 (finite differences of the gradient, an
    oracle).  Columns are processed in the same order with or without a pool (:3789-3810). *)
Section Jhessian.
Variable K : ringType.
Variable dim : nat.
Variable Hj : nat -> nat -> K.

(** np.delete(np.arange(Hdim), ccols), exp_fam.py:3813-3815 and 3824-3826. *)
Definition left_over (ccols : seq nat) : seq nat := [seq r <- iota 0 dim | r \notin ccols].

(** One pass of the loop, exp_fam.py:3802-3830: (value, row, column) triplets and ccols. *)
Definition jpass (st : seq (K * nat * nat) * seq nat) (j : nat) :=
  let '(trip, ccols) := st in
  let down := [seq (Hj j r, r, j) | r <- left_over ccols] in
  let ccols' := rcons ccols j in
  let across := [seq (Hj j c, j, c) | c <- left_over ccols'] in
  (trip ++ down ++ across, ccols').

(** csc_array((Hdat, (Hrows, Hcols))) adds the values of equal positions, exp_fam.py:3833. *)
Definition entry_of (trip : seq (K * nat * nat)) (r c : nat) : K :=
  \sum_(t <- trip | (t.1.2 == r) && (t.2 == c)) t.1.1.

Definition jhessian (jcols : seq nat) (r c : nat) : K := entry_of (foldl jpass ([::], [::]) jcols).1 r c.
(** GSMMFamily.hessian, exp_fam.py:3837-3878. *)
Definition hessian (r c : nat) : K := jhessian (iota 0 dim) r c.
End Jhessian.

Section Qefs.
Variable R : rcfType.

(** ** Stored update vectors

    linopH.sk, linopH.yk and linopH.rho; the attribute n_corrs was set by the constructor of
    LbfgsInvHessProduct (gamm_solvers.py:8401) and is not changed when sampleHcoef replaces the vectors
    (:7850-7852). *)
Section Memory.
Variable n : nat.
Inductive memory :=
| Nothing
| Pairs m (s y : 'I_m.+1 -> 'rV[R]_n) (rho : 'I_m.+1 -> R).
Definition length (mem : memory) : nat := if mem is Pairs m _ _ _ then m.+1 else 0.
End Memory.
Record linop n := Linop { lo_mem : memory n; lo_corrs : nat; lo_sampled : bool }.

(** compute_omega with method "NoWr" ([sampled] = false) or "mean", compact_rep.py:8-53.  The method
    "min" is never requested. *)
Definition compute_omega n m (s y : 'I_m.+1 -> 'rV[R]_n) (sampled : bool) : R :=
  let omega :=
    if sampled then (\sum_i dot (s i) (y i) / dot (s i) (s i)) / m.+1%:R
    else dot (y ord_max) (y ord_max) / dot (y ord_max) (s ord_max) in
  if omega < 0 then 1 else omega.

(** The two lines found in all callers, gamm_solvers.py:768-775, 7406-7411, 7494-7499. *)
Definition omega_of n (mem : memory n) (sampled : bool) : R :=
  match mem with Nothing => 1 | Pairs m s y rho => compute_omega s y sampled end.

(** Factors t1, t2, t3 of a low rank update. *)
Record terms n := Terms { tk : nat; tt1 : 'M[R]_(n, tk); tt2 : 'M[R]_tk; tt3 : 'M[R]_(tk, n) }.

(** Result of an economic QR decomposition. *)
Record economic n m := Economic { ek : nat; eQ : 'M[R]_(n, ek); eR : 'M[R]_(ek, m) }.

(** Oracles: scp.linalg.qr(mode="economic"), scp.linalg.eigh, scp.linalg.inv, scp.linalg.svd (U, singular
    values, VT), cpp_cholP, compute_Linv, cpp_qrr and Eigen's rank one update of a Cholesky factor. *)
Variable qr : forall n m, 'M[R]_(n, m) -> economic n m.
Variable eigh : forall k, 'M[R]_k -> 'rV[R]_k * 'M[R]_k.
Variable inv : forall k, 'M[R]_k -> 'M[R]_k.
Variable svd : forall k, 'M[R]_k -> 'M[R]_k * 'rV[R]_k * 'M[R]_k.
Variable cholP : forall k, 'M[R]_k -> factor R k.
Variable compute_Linv : forall k, 'M[R]_k -> 'M[R]_k.
Variable qrr : forall k e, 'M[R]_(e, k) -> 'M[R]_k * ('I_k -> 'I_k).
Variable rank_one : forall k, 'M[R]_k -> 'cV[R]_k -> R -> 'M[R]_k.
Variable root_eps : R.                       (* np.power(np.finfo(float).eps, 0.5) *)

(** computeHSR1 with explicit=False, compact_rep.py:234-313; the terms before the correction are those of
    [HSR1_terms]. *)
Definition hsr1 n m (s y : 'I_m.+1 -> 'rV[R]_n) (rho : 'I_m.+1 -> R) (H0 : 'M[R]_n) (omega : R)
    (make_psd make_pd : bool) : terms n :=
  let '(t1, t2, t3) := HSR1_terms s y rho (@inv m.+1) H0 in
  if make_psd then
    let q := qr t1 in
    let '(ev, P) := eigh (eR q *m t2 *m (eR q)^T) in
    if [exists i, ev 0 i + omega <= 0] then
      let ev1 := fix_ev ev omega in
      let ev2 := if make_pd then lift_ev ev ev1 omega root_eps else ev1 in
      Terms (eQ q *m P) (diag_mx ev2) (P^T *m (eQ q)^T)
    else Terms t1 t2 t3
  else Terms t1 t2 t3.

(** ** Implicit covariance matrix, getImplicitV without fcols, gamm_solvers.py:764-824 and 887

    V0 and, unless n_corrs is 0, the terms t1, t2, t3; t4 to t9 are None.  None: s[0] does not exist. *)
Definition getImplicitV n (lo : linop n) (S_emb : 'M[R]_n) : option ('M[R]_n * option (terms n)) :=
  let omega := omega_of (lo_mem lo) (lo_sampled lo) in
  let f := cholP (omega%:M + S_emb) in
  let LVp0 := compute_Linv (fac_L f) in
  let LV0 := apply_eigen_perm (fac_P f) LVp0 in
  let V0 := LV0^T *m LV0 in
  if lo_corrs lo == 0%N then Some (V0, None)
  else match lo_mem lo with
  | Nothing => None
  | Pairs m s y rho =>
      let nt := hsr1 s y rho omega%:M omega true false in
      let invt2 := 1%:M + tt2 nt *m tt3 nt *m V0 *m tt1 nt in
      let '(U, sv, VT) := svd invt2 in
      let t2 := VT^T *m diag_mx (\row_i (1 / sv 0 i)) *m U^T in
      Some (V0, Some (Terms (V0 *m tt1 nt) t2 (tt2 nt *m tt3 nt *m V0)))
  end.

(** A penalty: embedded matrix, first column, number of columns and smoothing parameter. *)
Record pen n := Pen { pn_S : 'M[R]_n; pn_start : nat; pn_len : nat; pn_lam : R }.

(** computetrVS3 with t4 and t7 None, gamm_solvers.py:680-706.  Without t2 the value is a 0-d array and
    VS_c[0, 0] raises (:695, :704): None. *)
Definition computetrVS3 n (V0 : 'M[R]_n) (t : option (terms n)) (p : pen n) : option R :=
  let cols := [seq c : 'I_n <- enum 'I_n | (pn_start p <= c < pn_start p + pn_len p)%N] in
  match t with
  | None => if cols is [::] then Some 0 else None
  | Some t =>
      Some (\sum_(c <- cols)
              let S_c := col c (pn_S p) in
              ((V0 *m S_c) c 0 - (row c (tt1 t) *m tt2 t *m tt3 t *m S_c) 0 0))
  end.

(** calculate_edf with a linear operator, gamm_solvers.py:948-991: total and one value for each penalty
    (the values of penalties with a common id are added afterwards, :995-1010). *)
Fixpoint edf_loop n (V0 : 'M[R]_n) (t : option (terms n)) (pens : seq (pen n)) (total : R) (terms : seq R) :
    option (R * seq R) :=
  match pens with
  | [::] => Some (total, terms)
  | p :: pens =>
      match computetrVS3 V0 t p with
      | None => None
      | Some Bps => edf_loop V0 t pens (total - pn_lam p * Bps) (rcons terms (pn_lam p * Bps))
      end
  end.
Definition calculate_edf n (lo : linop n) (S_emb : 'M[R]_n) (pens : seq (pen n)) : option (R * seq R) :=
  match getImplicitV lo S_emb with
  | None => None
  | Some (V0, t) => edf_loop V0 t pens n%:R [::]
  end.

(** ** Explicit matrix, getExplicitnH without fcols, gamm_solvers.py:7405-7422, 7451.  None: s[0] does not
    exist. *)
Definition getExplicitnH n (lo : linop n) (make_psd make_pd : bool) : option 'M[R]_n :=
  match lo_mem lo with
  | Nothing => None
  | Pairs m s y rho =>
      let omega := compute_omega s y (lo_sampled lo) in
      let t := hsr1 s y rho omega%:M omega make_psd make_pd in
      Some (omega%:M + tt1 t *m tt2 t *m tt3 t)
  end.

(** ** Factor of the penalised matrix, the end of getCholnH, gamm_solvers.py:7624-7678

    [E] is the hstack of the roots, t1 and t2 the update. *)
Definition up_down n (E_chol : 'M[R]_n * 'M[R]_n) (k : nat) (t1 : 'M[R]_(n, k)) (t2 : 'M[R]_k) :
    'M[R]_n * 'M[R]_n :=
  let '(L, P) := E_chol in
  let q := qr t1 in
  let '(eig2, U2) := eigh (eR q *m t2 *m (eR q)^T) in
  let U3 := P^T *m eQ q *m U2 in
  let pos_idx := [seq i <- enum 'I_(ek q) | 0 < eig2 0 i] in
  let L := foldl (fun L i => rank_one L (Num.sqrt (eig2 0 i) *: col i U3) 1) L pos_idx in
  let neg_idx := [seq i <- enum 'I_(ek q) | eig2 0 i < 0] in
  let L := foldl (fun L i => rank_one L (Num.sqrt `|eig2 0 i| *: col i U3) (-1)) L neg_idx in
  (L, P).

(** cpp_cholP of E E.T, or the R factor of E.T, gamm_solvers.py:7628-7640. *)
Definition root_factor n e (E : 'M[R]_(n, e)) : 'M[R]_n * 'M[R]_n :=
  let f := cholP (E *m E^T) in
  if fac_code f == 0%N then (fac_L f, (compute_eigen_perm R (fac_P f))^T)
  else let '(R2, Pr) := qrr E^T in (R2^T, compute_eigen_perm R Pr).

(** getCholnH without fcols, gamm_solvers.py:7492-7510, 7613-7614, 7621-7678.  [S_root] has r columns. *)
Definition getCholnH n r (lo : linop n) (S_root : 'M[R]_(n, r)) (make_pd : bool) : option ('M[R]_n * 'M[R]_n) :=
  match lo_mem lo with
  | Nothing => None
  | Pairs m s y rho =>
      let omega := compute_omega s y (lo_sampled lo) in
      let t := hsr1 s y rho omega%:M omega true make_pd in
      Some (up_down (root_factor (row_mx S_root (Num.sqrt omega)%:M)) (tt1 t) (tt2 t))
  end.

(** What solve_generalSmooth_sparse stores, gamm_solvers.py:9644-9668: H, L and LV.  [explicit] and
    [factored] are the results of getExplicitnH(LV, n, True, True) and of getCholnH, [m] is
    len(LV_linop.yk). *)
Definition store n (m : nat) (S_emb : 'M[R]_n) (explicit : option 'M[R]_n)
    (factored : option ('M[R]_n * 'M[R]_n)) : option ('M[R]_n * 'M[R]_n * 'M[R]_n) :=
  match explicit with
  | None => None
  | Some nH =>
      let H := -1 *: nH in
      let LpP :=
        if (3 * n < 10 * m)%N then
          let f := cholP (-1 *: H + S_emb) in Some (fac_L f, (compute_eigen_perm R (fac_P f))^T)
        else factored in
      match LpP with
      | None => None
      | Some (Lp, P) =>
          let LVp := compute_Linv Lp in
          Some (H, P *m Lp, LVp *m P^T)
      end
  end.
Definition stored n r (lo : linop n) (S_emb : 'M[R]_n) (S_root : 'M[R]_(n, r)) :=
  store (length (lo_mem lo)) S_emb (getExplicitnH lo true true) (getCholnH lo S_root true).

(** ** Blocks of known second derivatives *)
Section Blocks.
Variables nF nA : nat.
Variable tcols : 'I_(nF + nA) -> 'I_(nF + nA).          (* [*fcols, *acols] *)
Notation n := (nF + nA)%N.
Notation P1 := (P1 R tcols).
Notation P2 := (P2 R tcols).
Notation P3 := (P3 R nF nA).

(** np.max(np.abs(eig)). *)
Definition max_abs k (e : 'rV[R]_k) : R := foldr Num.max 0 [seq `|e 0 i| | i <- enum 'I_k].

(** makepdd_fd2llk, gamm_solvers.py:7178-7274: nHfd, onHBB, IonHBB, onHBb.  1 / 0 is 0 here and inf in
    the code (:7251). *)
Definition makepdd (nHfd : 'M[R]_n) (dampen_HBb : R) (make_PSD make_PD : bool) :=
  let onHfd := P1^T *m nHfd *m P1 in
  let onHBB := ulsubmx onHfd in
  let onHBb := dampen_HBb *: ursubmx onHfd in
  let '(eig, U) := eigh onHBB in
  let '(eig, ire) :=
    if make_PD && make_PSD then
      let thresh := root_eps * max_abs eig in
      let eig := \row_i (if eig 0 i <= thresh then thresh else eig 0 i) in
      (eig, \row_i (1 / eig 0 i))
    else
      let eig := if make_PSD then \row_i (if eig 0 i <= 0 then 0 else eig 0 i) else eig in
      (eig, \row_i (if eig 0 i != 0 then 1 / eig 0 i else 0)) in
  let onHBB := U *m diag_mx eig *m U^T in
  let IonHBB := U *m diag_mx ire *m U^T in
  let onHBb := if ~~ make_PD && make_PSD then onHBB *m IonHBB *m onHBb else onHBb in
  let onHfd := block_mx onHBB onHBb onHBb^T (drsubmx onHfd) in
  (P1 *m onHfd *m P1^T, onHBB, IonHBB, onHBb).

(** yks[:, acols], compact_rep.py:535-536; rhos are computed again (:539). *)
Definition part (x : 'rV[R]_n) : 'rV[R]_nA := \row_j x 0 (tcols (rshift nF j)).
Definition part_omega m (s y : 'I_m.+1 -> 'rV[R]_n) (sampled : bool) (dampen_HBB : R) : R :=
  dampen_HBB * compute_omega (part \o s) (part \o y) sampled.
Definition part_terms m (s y : 'I_m.+1 -> 'rV[R]_n) (sampled : bool) (dampen_HBB : R)
    (make_psd make_pd : bool) : terms nA :=
  let omega := part_omega s y sampled dampen_HBB in
  let rhos i := 1 / dot (part (s i)) (part (y i)) in
  hsr1 (part \o s) (part \o y) rhos omega%:M omega make_psd make_pd.

(** computeSH with explicit=True as called from getExplicitnH, compact_rep.py:508-592,
    gamm_solvers.py:7424-7451. *)
Definition getExplicitnH_blocks (lo : linop n) (nHfd : 'M[R]_n) (IonHBB : 'M[R]_nF) (dampen_HBB : R)
    (make_psd make_pd : bool) : option 'M[R]_n :=
  match lo_mem lo with
  | Nothing => None
  | Pairs m s y rho =>
      let onHfd := P1^T *m nHfd *m P1 in
      let onHBb := ursubmx onHfd in
      let omega := part_omega s y (lo_sampled lo) dampen_HBB in
      let q := part_terms s y (lo_sampled lo) dampen_HBB make_psd make_pd in
      let SonHbbqa := omega%:M + tt1 q *m tt2 q *m tt3 q in
      let onHbbqa := SonHbbqa + onHBb^T *m IonHBB *m onHBb in
      let onH := onHfd + P3 *m onHbbqa *m P3^T in
      Some (P1 *m onH *m P1^T)
  end.

(** R1 of getCholnH, gamm_solvers.py:7575-7606. *)
Definition known_root (nHfd : 'M[R]_n) (PD_HBB : bool) : 'M[R]_(n, nF) :=
  let onHfd := P1^T *m nHfd *m P1 in
  let onHBB := ulsubmx onHfd in
  let onHBb := ursubmx onHfd in
  let '(eig, U) := eigh onHBB in
  let eig := \row_i (if eig 0 i < 0 then 0 else eig 0 i) in
  let thresh := root_eps * max_abs eig in
  let eig := if PD_HBB then \row_i (if eig 0 i < thresh then thresh else eig 0 i) else eig in
  let ieig := \row_i (if 0 < eig 0 i then 1 / eig 0 i else 0) in
  let dsqrt := \row_i (if 0 < eig 0 i then Num.sqrt (eig 0 i) else 0) in
  let idsqrt := \row_i (if 0 < ieig 0 i then Num.sqrt (ieig 0 i) else 0) in
  P1 *m col_mx (U *m diag_mx dsqrt) (onHBb^T *m U *m diag_mx idsqrt).

(** R2 with fcols: sqrt(omega) at acols, gamm_solvers.py:7617-7619. *)
Definition scaled_root (omega : R) : 'M[R]_n :=
  diag_mx (\row_i (if [exists j, i == tcols (rshift nF j)] then Num.sqrt omega else 0)).

(** getCholnH with fcols, gamm_solvers.py:7512-7607, 7616-7678. *)
Definition getCholnH_blocks r (lo : linop n) (nHfd : 'M[R]_n) (S_root : 'M[R]_(n, r)) (dampen_HBB : R)
    (PD_HBB make_pd : bool) : option ('M[R]_n * 'M[R]_n) :=
  match lo_mem lo with
  | Nothing => None
  | Pairs m s y rho =>
      let q := part_terms s y (lo_sampled lo) dampen_HBB true make_pd in
      let omega := part_omega s y (lo_sampled lo) dampen_HBB in
      let E := row_mx S_root (row_mx (known_root nHfd PD_HBB) (scaled_root omega)) in
      Some (up_down (root_factor E) (P2 *m tt1 q) (tt2 q))
  end.

Definition stored_blocks r (lo : linop n) (nHfd : 'M[R]_n) (IonHBB : 'M[R]_nF) (S_emb : 'M[R]_n)
    (S_root : 'M[R]_(n, r)) (dampen_HBB : R) (PD_HBB : bool) :=
  store (length (lo_mem lo)) S_emb (getExplicitnH_blocks lo nHfd IonHBB dampen_HBB true true)
    (getCholnH_blocks lo nHfd S_root dampen_HBB PD_HBB true).
End Blocks.
End Qefs.
