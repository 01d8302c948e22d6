(** Model of the correction of covariance matrix and degrees of freedom for uncertainty about the smoothing parameters.
    Source: /repo/src/mssm/src/python/utils.py (correct_VB, compute_reml_candidate_GAMM, _compute_VB_corr_terms_MP).

    Matrices are mathcomp matrices over the real numbers (exact arithmetic; sparse and dense formats are not told
    apart).  The covariance matrix of the log smoothing parameters is modelled in HessModel, the samples that the
    candidates are estimated for are parameters here. *)

From Coq Require Import Reals.
From mathcomp Require Import all_ssreflect all_algebra.
From Verif Require Import RealField RealMat FamModel.
Import GRing.Theory.
Set Implicit Arguments.
Unset Strict Implicit.
Unset Printing Implicit Defensive.
Local Open Scope ring_scope.

Section Model.
Variables (n k : nat).

(** model.lvi, model.hessian, model.edf and orig_scale (utils.py:3896-3898; 1 for families other than Family,
    :3921). *)
Variables (lvi H : 'M[R]_n) (edf scale : R).

(** (model.lvi.T @ model.lvi) * orig_scale, utils.py:3989, :4594. *)
Definition Vb : 'M[R]_n := scale *: (lvi^T *m lvi).

(** Vr @ dBetadRhos.T, utils.py:3984, :4369. *)
Definition Vcr (Vr : 'M[R]_k) (dB : 'M[R]_(n, k)) : 'M[R]_(k, n) := Vr *m dB^T.

(** The two terms of the correction for given smoothing parameters, utils.py:3956-3986: compute_Vb_corr_WPS (see
    DchModel; the derivatives [D] of the inverse factor weighted by the covariance matrix [Vpr]), or only the first
    one, without compute_Vcc. *)
Definition Vc (Vr : 'M[R]_k) (dB : 'M[R]_(n, k)) : 'M[R]_n := (Vcr Vr dB)^T *m Vcr Vr dB.
Definition Vcc (compute_Vcc : bool) (Vpr : 'M[R]_k) (D : 'I_k -> 'M[R]_n) : 'M[R]_n :=
  if compute_Vcc then scale *: (\sum_p \sum_q Vpr p q *: (D p *m (D q)^T)) else 0.

(** V for grid_type "JJJ1" and the lower bound Vlb for "JJJ3", utils.py:3988-3995. *)
Definition V_JJJ1 (c : bool) (Vr Vpr : 'M[R]_k) dB D : 'M[R]_n := Vc Vr dB + Vcc c Vpr D + Vb.

(** scp.special.softmax; [use] is use_importance_weights, [prior] is logp - logq if a prior is given,
    utils.py:4351-4367. *)
Section Weights.
Variable N : nat.
Definition softmax (a : 'I_N -> R) : 'I_N -> R := fun i => exp (a i) / \sum_j exp (a j).
Definition weights (use : bool) (prior : option ('I_N -> R)) (remls : 'I_N -> R) : 'I_N -> R :=
  if use then
    match prior with
    | None => softmax remls
    | Some d => softmax (fun i => remls i + d i)
    end
  else softmax (fun _ => 1).

(** Vr1, Vr2 and Vr3, utils.py:4575-4588, :4603-4625: [Vs] are the covariance matrices of the candidates
    (Linv.T @ Linv * scale, :4304, :4578, :4606), [bs] their coefficients. *)
Definition Vr1 (ws : 'I_N -> R) (Vs : 'I_N -> 'M[R]_n) : 'M[R]_n := \sum_i ws i *: Vs i.
Definition Vr2 (ws : 'I_N -> R) (bs : 'I_N -> 'cV[R]_n) : 'M[R]_n := \sum_i ws i *: (bs i *m (bs i)^T).
Definition Vr3 (ws : 'I_N -> R) (bs : 'I_N -> 'cV[R]_n) : 'cV[R]_n := \sum_i ws i *: bs i.

(** V and nH for "JJJ2", utils.py:4573-4598; [nH] is the negative Hessian, possibly at the mean coefficients
    (:4371-4520). *)
Definition V_JJJ2 (ws : 'I_N -> R) (Vs : 'I_N -> 'M[R]_n) (nH : 'M[R]_n) (Vr : 'M[R]_k) dB : 'M[R]_n * 'M[R]_n :=
  let V1 := Vr1 ws Vs in
  let W := (Vcr Vr dB)^T *m Vcr Vr dB in
  if Rlt_dec (\tr (V1 *m nH)) edf then (Vb + W, -1 *: H) else (V1 + W, nH).

(** V and nH for "JJJ3", utils.py:4600-4648. *)
Definition V_JJJ3 (ws : 'I_N -> R) (Vs : 'I_N -> 'M[R]_n) (bs : 'I_N -> 'cV[R]_n) (nH Vlb : 'M[R]_n) : 'M[R]_n * 'M[R]_n :=
  let V := Vr1 ws Vs + Vr2 ws bs - Vr3 ws bs *m (Vr3 ws bs)^T in
  if Rlt_dec (\tr (V *m nH)) (\tr (Vlb *m (-1 *: H))) then (Vlb, -1 *: H) else (V, nH).

(** expected_edf, utils.py:4522-4551; [edfs] are the degrees of freedom of the candidates, [three] is grid_type
    "JJJ3". *)
Definition expected_edf (three : bool) (ws edfs : 'I_N -> R) (bs : 'I_N -> 'cV[R]_n) (nH : 'M[R]_n) (Vr : 'M[R]_k) dB : R :=
  let e := Rmax edf (\sum_i ws i * edfs i) in
  let a := \tr (Vcr Vr dB *m nH *m (Vcr Vr dB)^T) in
  if three then
    let m := Vr3 ws bs in
    let b := \sum_i ws i * ((bs i)^T *m nH *m bs i) 0 0 - (m^T *m nH *m m) 0 0 in
    if Rlt_dec b a then e + a else e + b
  else e + a.
End Weights.

(** What correct_VB returns about the degrees of freedom. *)
Record result := Result { r_edf : 'cV[R]_n; r_total : R; r_edf2 : 'cV[R]_n; r_total2 : R }.

(** utils.py:4707-4734.  After [edf = edf2] both names stand for one array, which [edf2 += ...] changes in place:
    then both are changed. *)
Definition finish (form_t1 : bool) (V nH : 'M[R]_n) : result :=
  let F := V *m nH in
  let edf1 : 'cV[R]_n := \col_i F i i in
  let total1 := \tr F in
  let ucF := lvi^T *m lvi *m (scale *: (-1 *: H)) in
  let ucFFd : 'cV[R]_n := \col_j \sum_i ucF i j * ucF^T i j in
  let total2 := 2%:R * edf - \sum_j ucFFd j 0 in
  let edf2 : 'cV[R]_n := \col_i (2%:R * ucF i i - ucFFd i 0) in
  let shared := if Rlt_dec total2 total1 then true else false in
  let total := if shared then total2 else total1 in
  let edf' := if shared then edf2 else edf1 in
  if form_t1 then
    let edf2' := edf2 + (edf' - \col_i ucF i i) in
    Result (if shared then edf2' else edf') total edf2' (total2 + (total - edf))
  else Result edf' total edf2 total2.

(** correct_VB, utils.py:3956-4739, without only_expected_edf: the covariance matrix and the degrees of freedom.
    [nH] is used for "JJJ2" and "JJJ3" (:4371-4520), for "JJJ1" it is -1 * model.hessian (:4653). *)
Inductive grid := JJJ1 | JJJ2 | JJJ3.
Definition correct_VB (g : grid) (c form_t1 : bool) (Vr Vpr : 'M[R]_k) dB D N (ws : 'I_N -> R) Vs bs nH : 'M[R]_n * result :=
  let (V, nH') := match g with
                  | JJJ1 => (V_JJJ1 c Vr Vpr dB D, -1 *: H)
                  | JJJ2 => V_JJJ2 ws Vs nH Vr dB
                  | JJJ3 => V_JJJ3 ws Vs bs nH (V_JJJ1 c Vr Vpr dB D)
                  end in
  (V, finish form_t1 V nH').
End Model.

(** ** Candidates for normal observations and identity link *)

Section Candidates.
Variables (N n : nat) (X : 'M[R]_(N, n)).

(** cpp_solve_coef, cpp_solve_coef_pqr with compute_Linv: the inverse factor and the coefficients for the penalties
    [pen]; the degrees of freedom of calculate_edf; compute_S_emb_pinv_det and REML for the penalties. *)
Variables (pens : Type) (solve : 'cV[R]_N -> pens -> 'M[R]_n * 'cV[R]_n) (calc_edf : 'M[R]_n -> pens -> R)
          (reml_of : R -> 'M[R]_n -> 'cV[R]_n -> R -> pens -> R).

(** family.scale: a known scale. *)
Variable known : option R.

(** family.llk for Gaussian, exp_fam.py:1052-1075. *)
Definition llk (y mu : 'cV[R]_N) (scale : R) : R := \sum_i norm_logpdf (y i 0) (mu i 0) (sqrt scale).

(** update_scale_edf for Gaussian with identity link, gamm_solvers.py:1160-1228 (see WorkModel). *)
Definition scale_of (y eta : 'cV[R]_N) (edf : R) : R :=
  match known with
  | Some s => s
  | None => (\sum_i (y i 0 - eta i 0) * (y i 0 - eta i 0)) / (N%:R - edf)
  end.

Record candidate := Candidate { c_Linv : 'M[R]_n; c_coef : 'cV[R]_n; c_reml : R; c_scale : R; c_edf : R; c_llk : R }.

(** _compute_VB_corr_terms_MP, utils.py:3053-3099. *)
Definition candidate_MP (y offset : 'cV[R]_N) (p : pens) : candidate :=
  let (Linv, coef) := solve (y - offset) p in
  let eta := X *m coef + offset in
  let edf := calc_edf Linv p in
  let scale := scale_of y eta edf in
  let l := llk y eta scale in
  Candidate Linv coef (reml_of l (scale^-1 *: (X^T *m X)) coef scale p) scale edf l.

(** compute_reml_candidate_GAMM, utils.py:1714-1719, :1838-1902: update_coef receives y - offset and offset 0, so that
    eta = mu = X coef; [origNH] is the last argument. *)
Definition candidate_GAMM (y offset : 'cV[R]_N) (origNH : option R) (p : pens) : candidate :=
  let (Linv, coef) := solve (y - offset) p in
  let eta := X *m coef in
  let edf := calc_edf Linv p in
  let scale := scale_of y eta edf in
  let l := llk y eta scale in
  Candidate Linv coef (reml_of l (scale^-1 *: (X^T *m X)) coef scale p) scale
    (match origNH with Some o => edf * (scale / o) | None => edf end) l.

(** The candidate that correct_VB works with, utils.py:4017-4302: with several processes ([par], n_c > 1) and method
    "Chol" ([chol]) from _compute_VB_corr_terms_MP (:4056-4150), with another method from
    compute_reml_candidate_GAMM with origNH = orig_scale for only_expected_edf (:4169-4200); with one process without
    origNH (:4284-4296). *)
Definition vb_candidate (par chol only : bool) (orig_scale : R) (y offset : 'cV[R]_N) (p : pens) : candidate :=
  if par then
    if chol then candidate_MP y offset p
    else candidate_GAMM y offset (if only then Some orig_scale else None) p
  else candidate_GAMM y offset None p.

(** The covariance matrix of a candidate, utils.py:4304, :4578, :4606. *)
Definition c_V (c : candidate) : 'M[R]_n := c_scale c *: ((c_Linv c)^T *m c_Linv c).
End Candidates.

(** What becomes of candidates that raise an exception ([None]) in models of other families: with several processes
    it is raised by correct_VB (utils.py:4220-4228), with one the candidate is skipped (:4307-4325). *)
Definition gather (par : bool) (T : Type) (cs : seq (option T)) : option (seq T) :=
  if par then (if all isSome cs then Some (pmap id cs) else None) else Some (pmap id cs).
