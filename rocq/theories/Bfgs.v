(** Model of src/macis/bfgs (bfgs.hpp, bfgs_hessian.hpp, line_search.hpp). The templates take
    a functor; [eval], [grad] and [converged] are its members, and its vectors are those of
    orbital_steps.cxx:40-140 (Eigen vectors: dot, axpy, scal and subtract as there), here lists
    of exact rationals. All vectors of an optimisation have the size of the starting point
    (what Eigen asserts). A quotient by zero is the error NonFinite unless said otherwise.
    Logging is not modelled. No proofs in this file. *)
From Coq Require Import QArith Qcanon.
From Verif Require Import Base SD Sums Ham Asci Mem.
Local Open Scope nat_scope.

(* orbital_steps.cxx:120-122 *)
Definition v_dot (x y : list Qc) : Qc := sum (seq 0 (length x)) (fun i => nth i x 0 * nth i y 0)%Qc.
(* orbital_steps.cxx:124-126 y += alpha * x *)
Definition v_axpy (a : Qc) (x y : list Qc) : list Qc := map (fun i => nth i y 0 + a * nth i x 0)%Qc (seq 0 (length y)).
(* orbital_steps.cxx:133-135 *)
Definition v_scal (a : Qc) (x : list Qc) : list Qc := map (fun i => a * nth i x 0)%Qc (seq 0 (length x)).
(* orbital_steps.cxx:136-138 *)
Definition v_sub (x y : list Qc) : list Qc := map (fun i => nth i x 0 - nth i y 0)%Qc (seq 0 (length x)).

(** ** bfgs_hessian.hpp *)
(* bfgs_hessian.hpp:59-76 (the factor of the current step), 83-103 (that of the first step),
   110-122 (a function), 124-142 (a diagonal), and 34 (nothing) *)
Inductive initial :=
| Unscaled
| UpdatedScaled (gamma_k : Qc)
| StaticScaled (gamma_0 : option Qc)
| Runtime (f : list Qc -> res (list Qc))
| Diagonal (inv_diag : list Qc).
(* bfgs_hessian.hpp:17-24; the vectors sk, yk and rhok together *)
Record hessian := mk_hessian { h_init : initial; h_pairs : list (list Qc * list Qc * Qc) }.
(* bfgs_hessian.hpp:54-57, 78-81, 105-108 *)
Definition make_identity_hessian : hessian := mk_hessian Unscaled [].
Definition make_updated_scaled_hessian : hessian := mk_hessian (UpdatedScaled 1%Qc) [].
Definition make_static_scaled_hessian : hessian := mk_hessian (StaticScaled None) [].
(* bfgs_hessian.hpp:118-119 *)
Definition runtime_hessian (f : list Qc -> res (list Qc)) : hessian := mk_hessian (Runtime f) [].
(* bfgs_hessian.hpp:131-135 *)
Definition diagonal_hessian (D : list Qc) : res hessian := do inv <- mapM (fun x => fdiv 1%Qc x) D; Ok (mk_hessian (Diagonal inv) []).

(* bfgs_hessian.hpp:26-32, with 68-72 and 91-97; the square of the norm of y is taken to be y.y *)
Definition h_update (B : hessian) (s y : list Qc) : res hessian :=
  do rho <- fdiv 1%Qc (v_dot y s);
  let init := match h_init B with
              | UpdatedScaled _ => UpdatedScaled (v_dot y y * rho)%Qc
              | StaticScaled None => StaticScaled (Some (v_dot y y * rho)%Qc)
              | i => i
              end in
  Ok (mk_hessian init (h_pairs B ++ [(s, y, rho)])).

(* bfgs_hessian.hpp:34, 75, 100-102, 121, 137-141 *)
Definition apply_H0 (i : initial) (x : list Qc) : res (list Qc) :=
  match i with
  | Unscaled => Ok x
  | UpdatedScaled g => do c <- fdiv 1%Qc g; Ok (v_scal c x)
  | StaticScaled None => Ok x
  | StaticScaled (Some g) => do c <- fdiv 1%Qc g; Ok (v_scal c x)
  | Runtime f => f x
  | Diagonal inv => foldM (seq 0 (length inv)) (fun x i => do u <- at_ x i; do d <- at_ inv i; put x i (u * d)%Qc) x
  end.

(* bfgs_hessian.hpp:36-51; alpha[i] is kept for the second loop *)
Definition h_apply (B : hessian) (x : list Qc) : res (list Qc) :=
  let nk := length (h_pairs B) in
  do a <- foldM (rev (seq 0 nk)) (fun qa i =>
    let '(q, alpha) := qa in
    do pr <- at_ (h_pairs B) i;
    let '(s, y, rho) := pr in
    let ai := (v_dot s q * rho)%Qc in
    do alpha <- put alpha i ai;
    Ok (v_axpy (- ai)%Qc y q, alpha)) (x, repeat 0%Qc nk);
  let '(q, alpha) := a in
  do q <- apply_H0 (h_init B) q;
  foldM (seq 0 nk) (fun q i =>
    do pr <- at_ (h_pairs B) i;
    let '(s, y, rho) := pr in
    let beta := (v_dot y q * rho)%Qc in
    do ai <- at_ alpha i;
    Ok (v_axpy (ai - beta)%Qc s q)) q.

Section FUNCTOR.
  Variables (eval : list Qc -> res Qc) (grad : list Qc -> res (list Qc)) (converged : list Qc -> list Qc -> bool).

  (** ** line_search.hpp *)
  (* line_search.hpp:69-72 and 99-101: x = x0 + step p, and the objective there *)
  Definition trial (x0 p : list Qc) (step : Qc) : res (list Qc * Qc) :=
    let x := v_axpy step p x0 in
    do fx <- eval x; Ok (x, fx).

  (* line_search.hpp:46-48, test_carlos *)
  Definition sufficient (fx0 t_armijo fx step : Qc) : bool := qlt (- Q2Qc (1 # 1000000))%Qc (fx0 - fx - step * t_armijo)%Qc.
  (* line_search.hpp:75-103, with USE_CARLOS_VAL defined as it is in line 35; [k] iterations are left *)
  Fixpoint backtrack (k : nat) (x0 p : list Qc) (fx0 t_armijo step : Qc) (x : list Qc) (fx : Qc) : res (Qc * list Qc * Qc) :=
    match k with
    | 0 => Ok (step, x, fx)
    | S k' =>
      if sufficient fx0 t_armijo fx step then Ok (step, x, fx)
      else
        let step := (step * Q2Qc (1 # 2))%Qc in
        do t <- trial x0 p step;
        backtrack k' x0 p fx0 t_armijo step (fst t) (snd t)
    end.
  (* line_search.hpp:18-108; returns step, x, fx and gfx *)
  Definition backtracking_line_search (x0 p : list Qc) (step : Qc) : res (Qc * list Qc * Qc * list Qc) :=
    do fx0 <- eval x0;
    do gfx0 <- grad x0;
    let dg0 := v_dot p gfx0 in
    if qlt 0%Qc dg0 then Err Throw
    else if negb (qlt 0%Qc step) then Err Throw
    else
      let t_armijo := (- dg0 * Q2Qc (1 # 2))%Qc in
      do t <- trial x0 p 1%Qc;
      do r <- backtrack 100 x0 p fx0 t_armijo 1%Qc (fst t) (snd t);
      let '(step, x, fx) := r in
      if qlt 0%Qc (fx - fx0)%Qc || qlt step (Q2Qc (1 # 1000000)) then Err Throw
      else do gfx <- grad x; Ok (step, x, fx, gfx).

  (* line_search.hpp:134-175, bracketing; a bound is (step, fx, dg), not yet set if None. The
     result is the answer, or the two bounds for the second phase *)
  Definition bound := (Qc * Qc * Qc)%type.
  Fixpoint nw_bracket (left : nat) (x0 p : list Qc) (fx0 armijo curv step : Qc) (lo : bound) (hi : option bound)
      : res ((Qc * list Qc * Qc * list Qc) + (bound * option bound)) :=
    let x := v_axpy step p x0 in
    do fx <- eval x;
    do gfx <- grad x;
    match left with
    | 0 => Ok (inr (lo, hi))
    | S left' =>
      let dg := v_dot gfx p in
      let '(step_lo, fx_lo, dg_lo) := lo in
      if qlt (step * armijo)%Qc (fx - fx0)%Qc || (qlt 0%Qc step_lo && negb (qlt fx fx_lo)) then Ok (inr (lo, Some (step, fx, dg)))
      else if negb (qlt curv (Qcabs dg)) then Ok (inl (step, x, fx, gfx))
      else if negb (qlt dg 0%Qc) then Ok (inr ((step, fx, dg), Some lo))
      else nw_bracket left' x0 p fx0 armijo curv (step * Q2Qc (2 # 1))%Qc (step, fx, dg) (Some lo)
    end.
  (* line_search.hpp:181-186. A quotient by zero is infinite, hence outside the interval, unless
     the numerator is zero too *)
  Definition nw_step (lo hi : bound) : res Qc :=
    let '(step_lo, fx_lo, dg_lo) := lo in
    let '(step_hi, fx_hi, dg_hi) := hi in
    let mid := (step_lo / Q2Qc (2 # 1) + step_hi / Q2Qc (2 # 1))%Qc in
    let num := ((fx_hi - fx_lo) * step_lo - (step_hi * step_hi - step_lo * step_lo) * dg_lo / Q2Qc (2 # 1))%Qc in
    let den := (fx_hi - fx_lo - (step_hi - step_lo) * dg_lo)%Qc in
    if Qc_eq_dec den 0%Qc then if Qc_eq_dec num 0%Qc then Err NonFinite else Ok mid
    else
      let step := (num / den)%Qc in
      let mn := if qlt step_hi step_lo then step_hi else step_lo in
      let mx := if qlt step_lo step_hi then step_hi else step_lo in
      Ok (if negb (qlt mn step) || negb (qlt step mx) then mid else step).
  (* line_search.hpp:178-221, zooming *)
  Fixpoint nw_zoom (left : nat) (x0 p : list Qc) (fx0 armijo curv : Qc) (lo hi : bound) : res (Qc * list Qc * Qc * list Qc) :=
    do step <- nw_step lo hi;
    let x := v_axpy step p x0 in
    do fx <- eval x;
    do gfx <- grad x;
    match left with
    | 0 => Err Throw
    | S left' =>
      let dg := v_dot gfx p in
      let '(step_lo, fx_lo, dg_lo) := lo in
      let '(step_hi, fx_hi, dg_hi) := hi in
      if qlt (step * armijo)%Qc (fx - fx0)%Qc || negb (qlt fx fx_lo) then
        if Qc_eq_dec step step_hi then Err Throw
        else nw_zoom left' x0 p fx0 armijo curv lo (step, fx, dg)
      else if negb (qlt curv (Qcabs dg)) then Ok (step, x, fx, gfx)
      else
        let hi := if qlt (dg * (step_hi - step_lo))%Qc 0%Qc then hi else lo in
        if Qc_eq_dec step step_lo then Err Throw
        else nw_zoom left' x0 p fx0 armijo curv (step, fx, dg) hi
    end.
  (* line_search.hpp:110-222; the caller passes the objective and the gradient at x0 *)
  Definition nocedal_wright_line_search (x0 p : list Qc) (step fx : Qc) (gfx : list Qc) : res (Qc * list Qc * Qc * list Qc) :=
    let dgi := v_dot p gfx in
    if qlt 0%Qc dgi then Err Throw
    else if negb (qlt 0%Qc step) then Err Throw
    else
      let armijo := (Q2Qc (1 # 10000) * dgi)%Qc in
      let curv := (- Q2Qc (9 # 10) * dgi)%Qc in
      do r <- nw_bracket 100 x0 p fx armijo curv step (0%Qc, fx, dgi) None;
      match r with
      | inl a => Ok a
      | inr (_, None) => Err UB
      | inr (lo, Some hi) => nw_zoom 100 x0 p fx armijo curv lo hi
      end.

  (* line_search.hpp:224-278; ds = 1. / 100 exactly *)
  Definition discrete_line_search (x0 p : list Qc) : res (Qc * list Qc * Qc * list Qc) :=
    do _ <- eval x0;
    do _ <- grad x0;
    do t <- trial x0 p 1%Qc;
    do m <- foldM (seq 1 99) (fun m ig =>
      let '(min_val, min_step) := m in
      let temp_step := (1 - inject ig * Q2Qc (1 # 100))%Qc in
      do t <- trial x0 p temp_step;
      Ok (if qlt (snd t) min_val then (snd t, temp_step) else (min_val, min_step))) (snd t, 1%Qc);
    let '(min_val, step) := m in
    let x := v_axpy step p x0 in
    do gfx <- grad x;
    Ok (step, x, min_val, gfx).

  (** ** bfgs.hpp *)
  (* bfgs.hpp:54-118; [k] iterations are left; any exception of the line search is reported as
     one (82). Returns the minimiser and the hessian *)
  Fixpoint bfgs_loop (k : nat) (x gfx p : list Qc) (B : hessian) : res (list Qc * hessian) :=
    match k with
    | 0 => Err Throw
    | S k' =>
      do r <- backtracking_line_search x p 1%Qc;
      let '(_, x_new, _, gfx_new) := r in
      let s := v_sub x_new x in
      let y := v_sub gfx_new gfx in
      do gfx <- grad x_new;
      if converged x_new gfx then Ok (x_new, B)
      else
        do B <- h_update B s y;
        do p <- h_apply B gfx;
        bfgs_loop k' x_new gfx (v_scal (- (1))%Qc p) B
    end.
  (* bfgs.hpp:25-120 *)
  Definition bfgs (x0 : list Qc) (B : hessian) (max_iter : nat) : res (list Qc * hessian) :=
    do _ <- eval x0;
    do gfx <- grad x0;
    bfgs_loop max_iter x0 gfx (v_scal (- (1))%Qc gfx) B.
  (* bfgs.hpp:122-128 *)
  Definition bfgs_identity (x0 : list Qc) (max_iter : nat) : res (list Qc) :=
    do r <- bfgs x0 make_identity_hessian max_iter; Ok (fst r).
End FUNCTOR.
