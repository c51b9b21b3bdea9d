(** The statements of C68 from the lemmas. *)
From Coq Require Import QArith Qcanon Lqa.
From Verif Require Import Base SD Sums Ham Asci AsciSort Mem MemProofs DenseSpec DenseProofs DiisSpec DiisProofs DavSpec McscfSpec RotProofs ExpandProofs DiisProofs2 Bfgs BfgsSpec BfgsProofs BfgsProofs2 BfgsProofs3 BfgsProofs4.
Local Open Scope nat_scope.

Definition makers (n : nat) : list (hessian * (list (list Qc * list Qc) -> Qc)) :=
  [(make_identity_hessian, fun _ => 1%Qc); (make_updated_scaled_hessian, last_scale n); (make_static_scaled_hessian, first_scale n)].
Lemma makers_pairs n B c : In (B, c) (makers n) -> h_pairs B = [].
Proof. intros [E|[E|[E|[]]]]; injection E as <- <-; reflexivity. Qed.
Lemma makers_starts n B c : In (B, c) (makers n) -> forall h, steps_ok n h -> starts n (fold_left (fun i sy => next_init i (the_gamma n sy)) h (h_init B)) (scaled_identity (c h)).
Proof.
  intros [E|[E|[E|[]]]] h OK; injection E as <- <-; cbn [h_init make_identity_hessian make_updated_scaled_hessian make_static_scaled_hessian].
  - rewrite keep_init by reflexivity. apply starts_identity.
  - apply starts_updated. exact OK.
  - apply starts_static. exact OK.
Qed.
Lemma makers_nil n B c : In (B, c) (makers n) -> c [] = 1%Qc.
Proof. intros [E|[E|[E|[]]]]; injection E as <- <-; reflexivity. Qed.
Lemma one_pos : (0 < 1)%Qc. Proof. reflexivity. Qed.
Lemma makers_positive n B c : In (B, c) (makers n) -> forall h, steps_ok n h -> positive_curvature n h -> (0 < c h)%Qc.
Proof.
  assert (F : forall h, positive_curvature n h -> (0 < first_scale n h)%Qc).
  { intros [|[s y] h] PC; [reflexivity|]. apply step_scale_positive, PC. left. reflexivity. }
  intros [E|[E|[E|[]]]] h OK PC; injection E as <- <-; [reflexivity| |apply F; exact PC]. apply F. intros s y I. apply PC, in_rev. exact I.
Qed.
Lemma g_matrix n B0 c h : In (B0, c) (makers n) -> steps_ok n h ->
  exists B, foldM h (fun B sy => h_update B (fst sy) (snd sy)) B0 = Ok B /\ forall x, length x = n -> exists q, h_apply B x = Ok q /\ product_with n (inverse_hessian n (scaled_identity (c h)) h) x q.
Proof. intros M OK. apply (matrix_of n h B0); [exact OK|exact (makers_pairs n B0 c M)|exact (makers_starts n B0 c M h OK)]. Qed.
Lemma g_diagonal n D h : length D = n -> (forall d, In d D -> d <> 0%Qc) -> steps_ok n h ->
  exists B0 B, diagonal_hessian D = Ok B0 /\ foldM h (fun B sy => h_update B (fst sy) (snd sy)) B0 = Ok B /\
    forall x, length x = n -> exists q, h_apply B x = Ok q /\ product_with n (inverse_hessian n (diagonal (map (fun d => 1 / d)%Qc D)) h) x q.
Proof.
  intros L NZ OK. rewrite (diagonal_ok D NZ). eexists.
  destruct (matrix_of n h (mk_hessian (Diagonal (map (fun d => 1 / d)%Qc D)) []) (diagonal (map (fun d => 1 / d)%Qc D)) OK eq_refl) as (B & E & A).
  { cbn [h_init]. rewrite keep_init by reflexivity. apply starts_diagonal. rewrite map_length. exact L. }
  exists B. split; [reflexivity|]. split; [exact E|exact A].
Qed.
Lemma g_runtime n f H0 h : (forall x, length x = n -> exists q, f x = Ok q /\ product_with n H0 x q) -> steps_ok n h ->
  exists B, foldM h (fun B sy => h_update B (fst sy) (snd sy)) (runtime_hessian f) = Ok B /\
    forall x, length x = n -> exists q, h_apply B x = Ok q /\ product_with n (inverse_hessian n H0 h) x q.
Proof. intros F OK. apply (matrix_of n h (runtime_hessian f) H0 OK eq_refl). cbn [h_init runtime_hessian]. rewrite keep_init by reflexivity. exact F. Qed.
Lemma g_secant n B0 c h s y B q : In (B0, c) (makers n) -> steps_ok n (h ++ [(s, y)]) -> foldM (h ++ [(s, y)]) (fun B sy => h_update B (fst sy) (snd sy)) B0 = Ok B ->
  h_apply B y = Ok q -> q = s.
Proof.
  intros M OK E A. destruct (g_matrix n B0 c _ M OK) as (B' & E' & K). rewrite E in E'. injection E' as <-. destruct (OK s y) as (Ls & Ly & NZ); [apply in_or_app; right; left; reflexivity|].
  destruct (K y Ly) as (q' & A' & PW). rewrite A in A'. injection A' as <-. unfold inverse_hessian in PW. rewrite fold_left_app in PW. cbn [fold_left] in PW. exact (secant n _ s y q Ls NZ PW).
Qed.
Lemma g_symmetric n B0 c h B x u p q : In (B0, c) (makers n) -> steps_ok n h -> foldM h (fun B sy => h_update B (fst sy) (snd sy)) B0 = Ok B -> length x = n -> length u = n ->
  h_apply B x = Ok p -> h_apply B u = Ok q -> dot n u p = dot n x q.
Proof.
  intros M OK E Lx Lu P Q. destruct (g_matrix n B0 c _ M OK) as (B' & E' & K). rewrite E in E'. injection E' as <-. destruct (K x Lx) as (p' & P' & (_ & PX)). destruct (K u Lu) as (q' & Q' & (_ & QX)). rewrite P in P'. injection P' as <-. rewrite Q in Q'. injection Q' as <-.
  assert (SY : symmetric2 n (inverse_hessian n (scaled_identity (c h)) h)). { apply inverse_hessian_sym. intros i j _ _. unfold scaled_identity, identity. rewrite Nat.eqb_sym. reflexivity. }
  unfold dot. rewrite (Sigma_ext n _ (fun i => Sigma n (fun j => nth i u 0 * (inverse_hessian n (scaled_identity (c h)) h i j * nth j x 0)))%Qc) by (intros i Hi; rewrite PX, Sigma_scale by exact Hi; reflexivity).
  rewrite Sigma_swap. apply Sigma_ext. intros j Hj. rewrite QX by exact Hj. rewrite <- Sigma_scale. apply Sigma_ext. intros i Hi. rewrite (SY i j) by assumption. ring.
Qed.
Lemma g_descent n B0 c h B g d : In (B0, c) (makers n) -> steps_ok n h -> positive_curvature n h -> foldM h (fun B sy => h_update B (fst sy) (snd sy)) B0 = Ok B ->
  length g = n -> nonzero g -> h_apply B g = Ok d -> (0 < dot n g d)%Qc.
Proof.
  intros M OK PC E Lg NZ A. destruct (g_matrix n B0 c _ M OK) as (B' & E' & K). rewrite E in E'. injection E' as <-. destruct (K g Lg) as (d' & A' & PW). rewrite A in A'. injection A' as <-.
  rewrite (product_expectation n _ g d PW). apply (inverse_hessian_positive n h OK PC); [|exact Lg|exact NZ]. apply scaled_positive. exact (makers_positive n B0 c M h OK PC).
Qed.
Lemma g_line_search eval grad x0 p step s x fx g : length p = length x0 -> backtracking_line_search eval grad x0 p step = Ok (s, x, fx, g) ->
  exists f0 g0 k, let d0 := dot (length x0) p g0 in (0 < step)%Qc /\ eval x0 = Ok f0 /\ grad x0 = Ok g0 /\ (d0 <= 0)%Qc /\ k <= 19 /\ s = halves k /\ moved x0 p s x /\ eval x = Ok fx /\ grad x = Ok g /\
    (fx <= f0)%Qc /\ decreased f0 d0 s fx /\
    forall j, j < k -> exists xj fj, moved x0 p (halves j) xj /\ eval xj = Ok fj /\ ~ decreased f0 d0 (halves j) fj.
Proof.
  intros Lp H. apply backtracking_spec in H. destruct H as (f0 & g0 & k & P & E0 & G0 & D & Hk & -> & -> & Ex & Gx & Lf & Dec & Fail). exists f0, g0, k. cbv zeta. rewrite (v_dot_n (length x0) p g0 Lp) in *.
  split; [exact P|]. split; [exact E0|]. split; [exact G0|]. split; [exact D|]. split; [exact Hk|]. split; [reflexivity|]. split; [apply moved_axpy|]. split; [exact Ex|]. split; [exact Gx|]. split; [exact Lf|]. split; [exact Dec|].
  intros j Hj. destruct (Fail j Hj) as (fj & Ej & Nj). exists (v_axpy (halves j) p x0), fj. split; [apply moved_axpy|]. split; assumption.
Qed.
Lemma g_wolfe eval grad x0 p step f0 g0 t x f g : length p = length x0 -> sized_gradient (length x0) grad -> nocedal_wright_line_search eval grad x0 p step f0 g0 = Ok (t, x, f, g) ->
  (0 < step)%Qc /\ (dot (length x0) p g0 <= 0)%Qc /\ (0 < t)%Qc /\ moved x0 p t x /\ eval x = Ok f /\ grad x = Ok g /\ strong_wolfe f0 (dot (length x0) p g0) t f (dot (length x0) p g).
Proof.
  intros Lp SG H. apply nw_spec in H. destruct H as (P & D & T & -> & Ex & Gx & A & C). rewrite (v_dot_n (length x0) p g0 Lp) in *. split; [exact P|]. split; [exact D|]. split; [exact T|]. split; [apply moved_axpy|]. split; [exact Ex|]. split; [exact Gx|].
  assert (Lg : length g = length x0) by (apply (SG (v_axpy t p x0)); [apply v_axpy_length|exact Gx]). rewrite (v_dot_n (length x0) g p Lg) in C.
  assert (S1 : dot (length x0) g p = dot (length x0) p g) by (apply Sigma_ext; intros; ring). rewrite S1 in C. revert A C. generalize (dot (length x0) p g) (dot (length x0) p g0). intros d d0 A C. unfold strong_wolfe. split.
  - revert A. unfold Qcle. cbn [this Qcminus Qcplus Qcmult Qcopp Q2Qc]. rewrite ?Qred_correct. intros. lra.
  - unfold Ham.Qcabs in C. revert C. generalize (- Q2Qc (9 # 10) * d0)%Qc. intros b C. destruct (qlt d 0) eqn:Q.
    + apply qlt_true in Q. revert C Q. unfold Qcle, Qclt. cbn [this Qcopp Q2Qc]. rewrite ?Qred_correct. intros. split; lra.
    + apply qlt_false in Q. revert C Q. unfold Qcle. cbn [this Qcopp Q2Qc]. rewrite ?Qred_correct. intros. split; lra.
Qed.
Lemma g_wolfe_total eval grad x0 p step f0 g0 : computable (length x0) eval grad -> length p = length x0 -> (0 < step)%Qc -> (dot (length x0) p g0 < 0)%Qc ->
  (exists r, nocedal_wright_line_search eval grad x0 p step f0 g0 = Ok r) \/ nocedal_wright_line_search eval grad x0 p step f0 g0 = Err Throw.
Proof. intros C Lp P D. apply (nw_total eval grad (length x0) C); [reflexivity|exact P|]. rewrite (v_dot_n (length x0) p g0 Lp). exact D. Qed.
Lemma g_grid eval grad x0 p s x f g : discrete_line_search eval grad x0 p = Ok (s, x, f, g) ->
  (exists i, i < 100 /\ s = (1 - inject i * Q2Qc (1 # 100))%Qc) /\ moved x0 p s x /\ eval x = Ok f /\ grad x = Ok g /\
  forall i, i < 100 -> exists xi fi, moved x0 p (1 - inject i * Q2Qc (1 # 100))%Qc xi /\ eval xi = Ok fi /\ (f <= fi)%Qc.
Proof.
  intros H. apply discrete_spec in H. destruct H as (S1 & -> & E & G & K). split; [exact S1|]. split; [apply moved_axpy|]. split; [exact E|]. split; [exact G|]. intros i Hi. destruct (K i Hi) as (fi & Ei & Li). exists (v_axpy (grid i) p x0), fi. split; [apply moved_axpy|]. split; assumption.
Qed.
Lemma g_bfgs eval grad converged n B0 c x0 max_iter x B : In (B0, c) (makers n) -> sized_gradient n grad -> length x0 = n -> bfgs eval grad converged x0 B0 max_iter = Ok (x, B) ->
  exists path h g0 g f0 f, nth 0 path ([], []) = (x0, g0) /\ bfgs_path n eval grad (fun h => scaled_identity (c h)) (path ++ [(x, g)]) h /\ 1 <= length path <= max_iter /\
    converged x g = true /\ eval x0 = Ok f0 /\ eval x = Ok f /\ (f <= f0)%Qc.
Proof.
  intros M SG L H. destruct (bfgs_spec eval grad converged n B0 c (makers_pairs n B0 c M) (makers_starts n B0 c M) (makers_nil n B0 c M) SG x0 max_iter (x, B) L H) as (path & h & g0 & g & N0 & PP & LL & CC & SS). cbn [fst] in *.
  assert (E0 : exists f0, eval x0 = Ok f0) by (unfold bfgs in H; binv H f0 E0; exists f0; exact E0). destruct E0 as (f0 & E0).
  destruct (bfgs_never_higher eval grad n c (path ++ [(x, g)]) h (length path) PP) with (f0 := f0) as (f & E & Le).
  - rewrite app_length. cbn. lia.
  - rewrite app_nth1 by lia. rewrite N0. exact E0.
  - rewrite app_nth2, Nat.sub_diag in E by lia. cbn [nth fst] in E. exists path, h, g0, g, f0, f. repeat (split; [eassumption|]). exact Le.
Qed.
Lemma g_convex eval grad converged n B0 c x0 max_iter : In (B0, c) (makers n) -> computable n eval grad -> strictly_monotone n grad ->
  (forall x g, length x = n -> length g = n -> ~ nonzero g -> converged x g = true) -> length x0 = n ->
  (exists r, bfgs eval grad converged x0 B0 max_iter = Ok r) \/ bfgs eval grad converged x0 B0 max_iter = Err Throw.
Proof.
  intros M C SM CV L. apply (bfgs_convex eval grad converged n B0 c (makers_pairs n B0 c M) (makers_starts n B0 c M) (makers_nil n B0 c M)); try assumption; [|exact (makers_positive n B0 c M)].
  intros x g Lx G. destruct (C x Lx) as (_ & g' & G' & Lg). rewrite G in G'. injection G' as <-. exact Lg.
Qed.
Lemma g_identity eval grad converged x0 max_iter : bfgs_identity eval grad converged x0 max_iter = do r <- bfgs eval grad converged x0 make_identity_hessian max_iter; Ok (fst r).
Proof. reflexivity. Qed.
