(** * C68: the BFGS optimiser *)
From Coq Require Import QArith Qcanon.
From Verif Require Import Base SD Sums Ham DenseSpec DavSpec Bfgs BfgsSpec BfgsGlue BfgsEx.
Local Open Scope nat_scope.

(** For every history of steps along which the gradient changes, the two-loop recursion
    multiplies with the BFGS matrix, for each of the starting matrices *)
Theorem C68_matrix : forall n B0 c h,
  In (B0, c) [(make_identity_hessian, fun _ => 1%Qc); (make_updated_scaled_hessian, last_scale n); (make_static_scaled_hessian, first_scale n)] ->
  steps_ok n h ->
  exists B, foldM h (fun B sy => h_update B (fst sy) (snd sy)) B0 = Ok B /\
    forall x, length x = n -> exists q, h_apply B x = Ok q /\ product_with n (inverse_hessian n (scaled_identity (c h)) h) x q.
Proof. exact g_matrix. Qed.
Theorem C68_matrix_diagonal : forall n D h, length D = n -> (forall d, In d D -> d <> 0%Qc) -> steps_ok n h ->
  exists B0 B, diagonal_hessian D = Ok B0 /\ foldM h (fun B sy => h_update B (fst sy) (snd sy)) B0 = Ok B /\
    forall x, length x = n -> exists q, h_apply B x = Ok q /\ product_with n (inverse_hessian n (diagonal (map (fun d => 1 / d)%Qc D)) h) x q.
Proof. exact g_diagonal. Qed.
Theorem C68_matrix_runtime : forall n f H0 h, (forall x, length x = n -> exists q, f x = Ok q /\ product_with n H0 x q) -> steps_ok n h ->
  exists B, foldM h (fun B sy => h_update B (fst sy) (snd sy)) (runtime_hessian f) = Ok B /\
    forall x, length x = n -> exists q, h_apply B x = Ok q /\ product_with n (inverse_hessian n H0 h) x q.
Proof. exact g_runtime. Qed.
Example C68_history : steps_ok 2 ex_h /\ positive_curvature 2 ex_h /\ length ex_h = 2.
Proof. exact (conj (proj1 ex_h_ok) (conj (proj2 ex_h_ok) eq_refl)). Qed.

(** The last change of the gradient is mapped to the last step (the secant equation) *)
Theorem C68_secant : forall n B0 c h s y B q,
  In (B0, c) [(make_identity_hessian, fun _ => 1%Qc); (make_updated_scaled_hessian, last_scale n); (make_static_scaled_hessian, first_scale n)] ->
  steps_ok n (h ++ [(s, y)]) -> foldM (h ++ [(s, y)]) (fun B sy => h_update B (fst sy) (snd sy)) B0 = Ok B -> h_apply B y = Ok q -> q = s.
Proof. exact g_secant. Qed.
(** The matrix is symmetric *)
Theorem C68_symmetric : forall n B0 c h B x u p q,
  In (B0, c) [(make_identity_hessian, fun _ => 1%Qc); (make_updated_scaled_hessian, last_scale n); (make_static_scaled_hessian, first_scale n)] ->
  steps_ok n h -> foldM h (fun B sy => h_update B (fst sy) (snd sy)) B0 = Ok B -> length x = n -> length u = n ->
  h_apply B x = Ok p -> h_apply B u = Ok q -> dot n u p = dot n x q.
Proof. exact g_symmetric. Qed.
(** With positive curvature along the steps, the search directions descend *)
Theorem C68_descent : forall n B0 c h B g d,
  In (B0, c) [(make_identity_hessian, fun _ => 1%Qc); (make_updated_scaled_hessian, last_scale n); (make_static_scaled_hessian, first_scale n)] ->
  steps_ok n h -> positive_curvature n h -> foldM h (fun B sy => h_update B (fst sy) (snd sy)) B0 = Ok B ->
  length g = n -> nonzero g -> h_apply B g = Ok d -> (0 < dot n g d)%Qc.
Proof. exact g_descent. Qed.

(** The backtracking line search returns the first halving of the step that decreases the
    objective as asked, with at most 19 halvings, and never a higher objective *)
Theorem C68_line_search : forall eval grad x0 p step s x fx g, length p = length x0 ->
  backtracking_line_search eval grad x0 p step = Ok (s, x, fx, g) ->
  exists f0 g0 k, let d0 := dot (length x0) p g0 in
    (0 < step)%Qc /\ eval x0 = Ok f0 /\ grad x0 = Ok g0 /\ (d0 <= 0)%Qc /\ k <= 19 /\ s = halves k /\ moved x0 p s x /\ eval x = Ok fx /\ grad x = Ok g /\
    (fx <= f0)%Qc /\ decreased f0 d0 s fx /\
    forall j, j < k -> exists xj fj, moved x0 p (halves j) xj /\ eval xj = Ok fj /\ ~ decreased f0 d0 (halves j) fj.
Proof. exact g_line_search. Qed.
Example C68_line_search_runs : exists r, backtracking_line_search bowl bowl_grad bowl_start down_dir 1%Qc = Ok r.
Proof. apply is_ok_ok. vm_compute. reflexivity. Qed.

(** The line search of Nocedal and Wright returns a point with the strong Wolfe conditions; it
    otherwise throws, and never reads a bound it has not set *)
Theorem C68_wolfe : forall eval grad x0 p step f0 g0 t x f g, length p = length x0 -> sized_gradient (length x0) grad ->
  nocedal_wright_line_search eval grad x0 p step f0 g0 = Ok (t, x, f, g) ->
  (0 < step)%Qc /\ (dot (length x0) p g0 <= 0)%Qc /\ (0 < t)%Qc /\ moved x0 p t x /\ eval x = Ok f /\ grad x = Ok g /\
  strong_wolfe f0 (dot (length x0) p g0) t f (dot (length x0) p g).
Proof. exact g_wolfe. Qed.
Theorem C68_wolfe_total : forall eval grad x0 p step f0 g0, computable (length x0) eval grad -> length p = length x0 -> (0 < step)%Qc -> (dot (length x0) p g0 < 0)%Qc ->
  (exists r, nocedal_wright_line_search eval grad x0 p step f0 g0 = Ok r) \/ nocedal_wright_line_search eval grad x0 p step f0 g0 = Err Throw.
Proof. exact g_wolfe_total. Qed.
Example C68_wolfe_runs : exists r, nocedal_wright_line_search bowl bowl_grad bowl_start down_dir 1%Qc (Q2Qc (3 # 1)) [Q2Qc (2 # 1); Q2Qc (4 # 1)] = Ok r.
Proof. apply is_ok_ok. vm_compute. reflexivity. Qed.

(** The discrete line search returns a best one of the hundred points of its grid *)
Theorem C68_grid : forall eval grad x0 p s x f g, discrete_line_search eval grad x0 p = Ok (s, x, f, g) ->
  (exists i, i < 100 /\ s = (1 - inject i * Q2Qc (1 # 100))%Qc) /\ moved x0 p s x /\ eval x = Ok f /\ grad x = Ok g /\
  forall i, i < 100 -> exists xi fi, moved x0 p (1 - inject i * Q2Qc (1 # 100))%Qc xi /\ eval xi = Ok fi /\ (f <= fi)%Qc.
Proof. exact g_grid. Qed.
Example C68_grid_runs : exists r, discrete_line_search bowl bowl_grad bowl_start down_dir = Ok r.
Proof. apply is_ok_ok. vm_compute. reflexivity. Qed.
(** ... which may be worse than the point it starts from *)
Theorem C68_grid_descends_refuted : ~ forall eval grad x0 p s x f g f0, discrete_line_search eval grad x0 p = Ok (s, x, f, g) -> eval x0 = Ok f0 -> (f <= f0)%Qc.
Proof. exact grid_rises. Qed.

(** What the optimiser returns is the end of a path of BFGS steps from the starting point, of at
    most the allowed length, along which the objective does not rise, and it passes the test of
    convergence *)
Theorem C68_bfgs : forall eval grad converged n B0 c x0 max_iter x B,
  In (B0, c) [(make_identity_hessian, fun _ => 1%Qc); (make_updated_scaled_hessian, last_scale n); (make_static_scaled_hessian, first_scale n)] ->
  sized_gradient n grad -> length x0 = n -> bfgs eval grad converged x0 B0 max_iter = Ok (x, B) ->
  exists path h g0 g f0 f, nth 0 path ([], []) = (x0, g0) /\ bfgs_path n eval grad (fun h => scaled_identity (c h)) (path ++ [(x, g)]) h /\ 1 <= length path <= max_iter /\
    converged x g = true /\ eval x0 = Ok f0 /\ eval x = Ok f /\ (f <= f0)%Qc.
Proof. exact g_bfgs. Qed.
Theorem C68_default : forall eval grad converged x0 max_iter x, bfgs_identity eval grad converged x0 max_iter = Ok x <->
  exists B, bfgs eval grad converged x0 make_identity_hessian max_iter = Ok (x, B).
Proof. exact g_default. Qed.
Example C68_bfgs_runs : exists x, bfgs_identity bowl bowl_grad (flat (Q2Qc (1 # 10000))) bowl_start 20 = Ok x.
Proof. exact bowl_bfgs. Qed.
Example C68_bfgs_updated_runs : exists r, bfgs bowl bowl_grad (flat (Q2Qc (1 # 10000))) bowl_start make_updated_scaled_hessian 20 = Ok r.
Proof. exact bowl_bfgs_updated. Qed.

(** For a strictly convex objective the optimiser converges or throws: it never divides by a
    curvature of zero *)
Theorem C68_convex : forall eval grad converged n B0 c x0 max_iter,
  In (B0, c) [(make_identity_hessian, fun _ => 1%Qc); (make_updated_scaled_hessian, last_scale n); (make_static_scaled_hessian, first_scale n)] ->
  computable n eval grad -> strictly_monotone n grad -> (forall x g, length x = n -> length g = n -> ~ nonzero g -> converged x g = true) -> length x0 = n ->
  (exists r, bfgs eval grad converged x0 B0 max_iter = Ok r) \/ bfgs eval grad converged x0 B0 max_iter = Err Throw.
Proof. exact g_convex. Qed.
Example C68_convex_bowl : computable 2 bowl bowl_grad /\ strictly_monotone 2 bowl_grad /\
  forall x g, length x = 2 -> length g = 2 -> ~ nonzero g -> flat (Q2Qc (1 # 10000)) x g = true.
Proof. exact (conj bowl_computable (conj bowl_monotone (fun x g _ _ => flat_zero (Q2Qc (1 # 10000)) x g eq_refl))). Qed.
(** Where the curvature is negative the next direction ascends, and the optimiser gives up: it
    throws from the start 1 of the double well x^4/40 - x^2/2, whatever the number of iterations *)
Theorem C68_converges_refuted : computable 1 well well_grad /\ (exists x, bfgs_identity well well_grad (flat (Q2Qc (1 # 100))) [Q2Qc (2 # 1)] 20 = Ok x) /\
  forall max_iter, bfgs_identity well well_grad (flat (Q2Qc (1 # 100))) [1%Qc] max_iter = Err Throw.
Proof. exact well_facts. Qed.

Print Assumptions C68_matrix.
Print Assumptions C68_matrix_diagonal.
Print Assumptions C68_matrix_runtime.
Print Assumptions C68_secant.
Print Assumptions C68_symmetric.
Print Assumptions C68_descent.
Print Assumptions C68_line_search.
Print Assumptions C68_wolfe.
Print Assumptions C68_wolfe_total.
Print Assumptions C68_grid.
Print Assumptions C68_grid_descends_refuted.
Print Assumptions C68_bfgs.
Print Assumptions C68_default.
Print Assumptions C68_convex.
Print Assumptions C68_converges_refuted.
