(** Davies' routine for sums of weighted chi-square variables: davies.cpp.  Doubles are real numbers; the series of log1
    (davies.cpp:43-62) stands for the logarithm it computes, exp1 (:24-31) is kept. *)
From Coq Require Import List Arith ZArith Reals.
Import ListNotations.
Local Open Scope R_scope.

(** ** order, davies.cpp:64-91 *)
(** An array of int, and an assignment to one entry. *)
Definition upd (th : nat -> nat) (i v : nat) : nat -> nat := fun k => if (k =? i)%nat then v else th k.
(** The body of the loop over j.  The loop over k ends after its first round: both branches are followed by a break
    (davies.cpp:73-84). *)
Definition order_step (lb : nat -> R) (th : nat -> nat) (j : nat) : nat -> nat :=
  match j with
  | O => upd th 0 0
  | S k => if Rlt_dec (Rabs (lb (th k))) (Rabs (lb (S k))) then upd (upd th (S k) (th k)) 0 (S k) else upd th (S k) (S k)
  end.
(** th after order; [th0] is what malloc returned. *)
Definition order (lb : nat -> R) (r : nat) (th0 : nat -> nat) : nat -> nat := fold_left (order_step lb) (seq 0 r) th0.

(** ** cfe, davies.cpp:228-256 *)
Definition log28 : R := 866 / 10000.
Definition sum_list (l : list R) : R := fold_right Rplus 0 l.
(** The loop over j, downwards: [js] are the places that are left, first the highest.  Result: axl and sum1. *)
Fixpoint cfe_loop (lb nc : nat -> R) (n : nat -> Z) (th : nat -> nat) (sxl : R) (j : nat) (axl : R) : R * R :=
  match j with
  | O => (axl, 0)
  | S k =>
      let t := th k in
      if Rlt_dec 0 (lb t * sxl) then
        let lj := Rabs (lb t) in
        let axl1 := axl - lj * (IZR (n t) + nc t) in
        let axl2 := lj / log28 in
        if Rlt_dec axl2 axl1 then cfe_loop lb nc n th sxl k axl1
        else
          let axl' := if Rlt_dec axl2 axl then axl2 else axl in
          (axl', (axl' - axl1) / lj + sum_list (map (fun i => IZR (n (th i)) + nc (th i)) (seq 0 k)))
      else cfe_loop lb nc n th sxl k axl
  end.
(** The value, and whether fail is set; [th] is the result of order. *)
Definition cfe_with (lb nc : nat -> R) (n : nat -> Z) (r : nat) (th : nat -> nat) (x : R) : R * bool :=
  let sxl := if Rlt_dec 0 x then 1 else - 1 in
  let '(axl, sum1) := cfe_loop lb nc n th sxl r (Rabs x) in
  if Rlt_dec 100 sum1 then (1, true) else (Rpower 2 (sum1 / 4) / (PI * (axl * axl)), false).
Definition cfe (lb nc : nat -> R) (n : nat -> Z) (r : nat) (th0 : nat -> nat) (x : R) : R * bool :=
  cfe_with lb nc n r (order lb r th0) x.

(** ** errbd, davies.cpp:93-110: the bound and the cutoff point. *)
Definition exp1 (x : R) : R := if Rlt_dec x (- 50) then 0 else exp x.
Definition errbd (vars : list (R * R * R)) (sigsq u : R) : R * R :=
  let '(sum1, xconst) := fold_right (fun v acc =>
      let '(lj, nj, ncj) := v in
      let '(s, xc) := acc in
      let x := 2 * u * lj in
      let y := 1 - x in
      (s + ncj * (x / y * (x / y)) + nj * (x * x / y + (ln (1 + - x) - - x)), xc + lj * (ncj / y + nj) / y))
    (u * (u * sigsq), u * sigsq) vars in
  (exp1 (- / 2 * sum1), xconst).

(** ** qf, davies.cpp:258-420 *)
Inductive res (A : Type) := Stuck | Fault (code : Z) (count : nat) | Done (a : A) (count : nat).
Arguments Stuck {A}. Arguments Fault {A}. Arguments Done {A}.
Definition bind {A B} (x : res A) (f : A -> nat -> res B) : res B :=
  match x with Stuck => Stuck | Fault e c => Fault e c | Done a c => f a c end.

Section Qf.
(** truncation(u, tausq, sigsq), errbd(u, sigsq) with bound and cutoff, cfe(x) with fail, and what integrate adds to intl
    and ersm for nterm, interv, tausq, mainx, sigsq (davies.cpp:93-257, without counter). *)
Variable trunc_err : R -> R -> R -> R.
Variable err_bound : R -> R -> R * R.
Variable cfe_val : R -> R * bool.
Variable integral : Z -> R -> R -> bool -> R -> R * R.
(** Arguments lim, c, acc, sigma, the weights with degrees of freedom and noncentralities. *)
Variable lim : nat.
Variables c acc sigma : R.
Variable vars : list (R * Z * R).

(** counter, davies.cpp:33-41: every call of truncation, errbd and cfe is counted, the one after lim throws 4. *)
Definition call {A} (f : A) (count : nat) : res A := if (lim <? S count)%nat then Fault 4 (S count) else Done f (S count).

(** Loops run as long as their conditions say; [fuel] only makes the recursion structural, [Stuck] says that it is used
    up. *)
(** findu, davies.cpp:175-195. *)
Fixpoint grow (fuel : nat) (accx sigsq ut : R) (count : nat) : res R :=
  bind (call (trunc_err ut 0 sigsq) count) (fun e c' =>
    if Rlt_dec accx e then match fuel with O => Stuck | S f => grow f accx sigsq (ut * 4) c' end else Done ut c').
Fixpoint shrink (fuel : nat) (accx sigsq ut u : R) (count : nat) : res R :=
  bind (call (trunc_err u 0 sigsq) count) (fun e c' =>
    if Rle_dec e accx then match fuel with O => Stuck | S f => shrink f accx sigsq u (u / 4) c' end else Done ut c').
Fixpoint refine (divs : list R) (accx sigsq ut : R) (count : nat) : res R :=
  match divs with
  | [] => Done ut count
  | d :: r => bind (call (trunc_err (ut / d) 0 sigsq) count) (fun e c' =>
      refine r accx sigsq (if Rle_dec e accx then ut / d else ut) c')
  end.
Definition findu (fuel : nat) (accx sigsq utx : R) (count : nat) : res R :=
  let u := utx / 4 in
  bind (bind (call (trunc_err u 0 sigsq) count) (fun e c' =>
          if Rlt_dec accx e then grow fuel accx sigsq utx c' else shrink fuel accx sigsq u (u / 4) c'))
    (refine [2; 14 / 10; 12 / 10; 11 / 10] accx sigsq).

(** ctff, davies.cpp:112-136: new upn and cutoff. *)
Fixpoint widen (fuel : nat) (accx sigsq rb u1 c1 u2 : R) (count : nat) : res (R * R * R * R) :=
  bind (call (err_bound (u2 / (1 + u2 * rb)) sigsq) count) (fun e c' =>
    if Rlt_dec accx (fst e) then match fuel with O => Stuck | S f => widen f accx sigsq rb u2 (snd e) (2 * u2) c' end
    else Done (u1, c1, u2, snd e) c').
Fixpoint narrow (fuel : nat) (accx sigsq rb mean u1 c1 u2 c2 : R) (count : nat) : res (R * R) :=
  if Rlt_dec ((c1 - mean) / (c2 - mean)) (9 / 10) then
    let u := (u1 + u2) / 2 in
    bind (call (err_bound (u / (1 + u * rb)) sigsq) count) (fun e c' =>
      match fuel with
      | O => Stuck
      | S f => if Rlt_dec accx (fst e) then narrow f accx sigsq rb mean u (snd e) u2 c2 c'
               else narrow f accx sigsq rb mean u1 c1 u (snd e) c'
      end)
  else Done (u2, c2) count.
Definition ctff (fuel : nat) (accx sigsq lmin lmax mean upn : R) (count : nat) : res (R * R) :=
  let rb := 2 * (if Rlt_dec 0 upn then lmax else lmin) in
  bind (widen fuel accx sigsq rb 0 mean upn count) (fun w c' =>
    let '(u1, c1, u2, c2) := w in narrow fuel accx sigsq rb mean u1 c1 u2 c2 c').

(** Mean, sd^2, max and min of the weights, davies.cpp:322-333; [None]: throw 3. *)
Definition scan (sigsq : R) : option (R * R * R * R) :=
  fold_left (fun st v =>
    match st with
    | None => None
    | Some (sd, mean, lmax, lmin) =>
        let '(lj, nj, ncj) := v in
        if (nj <? 0)%Z then None else if Rlt_dec ncj 0 then None
        else Some (sd + lj * lj * (2 * IZR nj + 4 * ncj), mean + lj * (IZR nj + ncj),
                   if Rlt_dec lmax lj then lj else lmax,
                   if Rlt_dec lmax lj then lmin else if Rlt_dec lj lmin then lj else lmin)
    end) vars (Some (sigsq, 0, 0, 0)).

(** floor(x + 0.5) *)
Definition nearest (x : R) : Z := Int_part (x + / 2).

(** What is known when the main integration starts, or the value if c is outside the range: intl, ersm, interval, xnt,
    xlim, sigsq, numbers of terms and of integrations so far. *)
Inductive stage := Out (q : R) | Main (intl ersm intv xnt xlim sigsq terms ints : R).

(** The do-while loop, davies.cpp:359-396. *)
Fixpoint range (fuel : nat) (lmin lmax mean up un acc1 sigsq utx xlim intl ersm terms ints : R) (count : nat) : res stage :=
  bind (ctff lim acc1 sigsq lmin lmax mean up count) (fun a c1' =>
    let d1 := snd a - c in
    if Rlt_dec d1 0 then Done (Out 1) c1' else
    bind (ctff lim acc1 sigsq lmin lmax mean un c1') (fun b c2' =>
      let d2 := c - snd b in
      if Rlt_dec d2 0 then Done (Out 0) c2' else
      let intv := 2 * PI / (if Rlt_dec d2 d1 then d1 else d2) in
      let xnt := utx / intv in
      let xntm := 3 / sqrt acc1 in
      let out := Main intl ersm intv xnt xlim sigsq terms ints in
      if Rlt_dec (xntm * (15 / 10)) xnt then
        if Rlt_dec xlim xntm then Fault 1 c2' else
        let ntm := nearest xntm in
        let intv1 := utx / IZR ntm in
        let x := 2 * PI / intv1 in
        if Rlt_dec (Rabs c) x then
          bind (call (cfe_val (c - x)) c2') (fun k1 c3 =>
          bind (call (cfe_val (c + x)) c3) (fun k2 c4 =>
            if (snd k1 || snd k2)%bool then Done out c4 else
            let tausq := 33 / 100 * acc1 / (11 / 10 * (fst k1 + fst k2)) in
            let acc2 := 67 / 100 * acc1 in
            let '(di, de) := integral ntm intv1 tausq false sigsq in
            bind (findu lim (25 / 100 * acc2) (sigsq + tausq) utx c4) (fun utx' c5 =>
              match fuel with
              | O => Stuck
              | S f => range f lmin lmax mean (fst a) (fst b) (75 / 100 * acc2) (sigsq + tausq) utx' (xlim - xntm) (intl + di)
                         (ersm + de) (terms + IZR ntm + 1) (ints + 1) c5
              end)))
        else Done out c2'
      else Done out c2')).

(** Main integration and the round-off test, davies.cpp:398-409; a power of two times a number is exact, so that the four
    comparisons are one, and over the reals they only hold if acc is 0. *)
Definition finish (s : stage) (count : nat) : res (R * Z * R * R) :=
  match s with
  | Out q => Done (q, 0%Z, 0, 0) count
  | Main intl ersm intv xnt xlim sigsq terms ints =>
      if Rlt_dec xlim xnt then Fault 1 count else
      let nt := nearest xnt in
      let '(di, de) := integral nt intv 0 true sigsq in
      let up := ersm + de in
      Done (/ 2 - (intl + di), if Req_EM_T (up + acc / 10) up then 2%Z else 0%Z, terms + IZR nt + 1, ints + 1) count
  end.

(** The convergence factor, davies.cpp:344-356: new sigsq and truncation point. *)
Definition factor (almx sd sigsq utx : R) (count : nat) : res (R * R) :=
  if Req_EM_T c 0 then Done (sigsq, utx) count else
  if Rlt_dec (7 / 100 * sd) almx then
    bind (call (cfe_val c) count) (fun k c' =>
      if snd k then Done (sigsq, utx) c' else
      let tausq := 25 / 100 * acc / fst k in
      bind (call (trunc_err utx tausq sigsq) c') (fun e c'' =>
        if Rlt_dec e (2 / 10 * acc)
        then bind (findu lim (25 / 100 * acc) (sigsq + tausq) utx c'') (fun u c3 => Done (sigsq + tausq, u) c3)
        else Done (sigsq, utx) c''))
  else Done (sigsq, utx) count.

(** value, ifault, trace[1], trace[2] and the count, davies.cpp:310-420. *)
Definition qf : res (R * Z * R * R) :=
  let sigsq := sigma * sigma in
  match scan sigsq with
  | None => Fault 3 0
  | Some (sd2, mean, lmax, lmin) =>
      if Req_EM_T sd2 0 then Done (if Rlt_dec 0 c then 1 else 0, 0%Z, 0, 0) 0
      else if (if Req_EM_T lmin 0 then if Req_EM_T lmax 0 then if Req_EM_T sigma 0 then true else false else false else false)
      then Fault 3 0
      else
        let sd := sqrt sd2 in
        let almx := if Rlt_dec lmax (- lmin) then - lmin else lmax in
        bind (findu lim (/ 2 * acc) sigsq (16 / sd) 0) (fun utx c1' =>
        bind (factor almx sd sigsq utx c1') (fun w c2' =>
        bind (range lim lmin lmax mean (45 / 10 / sd) (- (45 / 10 / sd)) (/ 2 * acc) (fst w) (snd w) (INR lim) 0 0 0 0 c2')
          finish))
  end.

(** What daviesQF hands to Python, davies.cpp:315, 411-420, 446-449: value and code; -1 if an exception was thrown. *)
Definition daviesQF : option (R * Z) :=
  match qf with
  | Stuck => None
  | Fault e _ => Some (- 1, e)
  | Done (q, e, _, _) _ => Some (q, e)
  end.
End Qf.
