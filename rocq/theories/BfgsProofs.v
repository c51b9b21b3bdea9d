(** The two-loop recursion is a product with the BFGS matrix. *)
From Coq Require Import QArith Qcanon Lqa.
From Verif Require Import Base SD Sums Ham Asci Mem MemProofs DenseSpec DenseProofs DiisSpec DiisProofs DavSpec McscfSpec RotProofs ExpandProofs DiisProofs2 Bfgs BfgsSpec.
Local Open Scope nat_scope.

Lemma v_dot_n n x y : length x = n -> v_dot x y = dot n x y.
Proof. intros <-. reflexivity. Qed.
Lemma map_seq_nth n f i : i < n -> nth i (map f (seq 0 n)) 0%Qc = f i.
Proof. intros H. rewrite (nth_indep _ _ (f 0)) by (rewrite map_length, seq_length; exact H). rewrite map_nth, seq_nth by exact H. reflexivity. Qed.
Lemma v_axpy_nth a x y i : i < length y -> nth i (v_axpy a x y) 0%Qc = (nth i y 0 + a * nth i x 0)%Qc.
Proof. intros H. unfold v_axpy. rewrite map_seq_nth by exact H. reflexivity. Qed.
Lemma v_axpy_length a x y : length (v_axpy a x y) = length y.
Proof. unfold v_axpy. rewrite map_length, seq_length. reflexivity. Qed.
Lemma v_scal_nth a x i : i < length x -> nth i (v_scal a x) 0%Qc = (a * nth i x 0)%Qc.
Proof. intros H. unfold v_scal. rewrite map_seq_nth by exact H. reflexivity. Qed.
Lemma v_scal_length a x : length (v_scal a x) = length x.
Proof. unfold v_scal. rewrite map_length, seq_length. reflexivity. Qed.
Lemma v_sub_nth x y i : i < length x -> nth i (v_sub x y) 0%Qc = (nth i x 0 - nth i y 0)%Qc.
Proof. intros H. unfold v_sub. rewrite map_seq_nth by exact H. reflexivity. Qed.
Lemma v_sub_length x y : length (v_sub x y) = length x.
Proof. unfold v_sub. rewrite map_length, seq_length. reflexivity. Qed.

(** ** the two loops as one recursion, newest pair first *)
Fixpoint two_loop (i : initial) (rp : list (list Qc * list Qc * Qc)) (q : list Qc) : res (list Qc) :=
  match rp with
  | [] => apply_H0 i q
  | (s, y, rho) :: rp' =>
    let a := (v_dot s q * rho)%Qc in
    do r <- two_loop i rp' (v_axpy (- a)%Qc y q);
    Ok (v_axpy (a - v_dot y r * rho)%Qc s r)
  end.
Definition down (P : list (list Qc * list Qc * Qc)) (qa : list Qc * list Qc) (i : nat) : res (list Qc * list Qc) :=
  let '(q, alpha) := qa in
  do pr <- at_ P i;
  let '(s, y, rho) := pr in
  let ai := (v_dot s q * rho)%Qc in
  do alpha <- put alpha i ai;
  Ok (v_axpy (- ai)%Qc y q, alpha).
Definition up (P : list (list Qc * list Qc * Qc)) (alpha : list Qc) (q : list Qc) (i : nat) : res (list Qc) :=
  do pr <- at_ P i;
  let '(s, y, rho) := pr in
  let beta := (v_dot y q * rho)%Qc in
  do ai <- at_ alpha i;
  Ok (v_axpy (ai - beta)%Qc s q).
Lemma bind_assoc {A B C} (m : res A) (f : A -> res B) (g : B -> res C) : bind (bind m f) g = bind m (fun x => bind (f x) g).
Proof. destruct m; reflexivity. Qed.
Lemma bind_ext {A B} (m : res A) (f g : A -> res B) : (forall x, f x = g x) -> bind m f = bind m g.
Proof. intros H. destruct m; [apply H|reflexivity]. Qed.
Lemma firstn_snoc {A} (l : list A) : forall k x, nth_error l k = Some x -> firstn (S k) l = firstn k l ++ [x].
Proof. induction l as [|y l IH]; intros [|k] x H; try discriminate H. { cbn in *. injection H as ->. reflexivity. } cbn [firstn app]. f_equal. apply IH. exact H. Qed.
Lemma loops_ok i P : forall k q alpha, k <= length P -> length alpha = length P ->
  exists q1 alpha1, foldM (rev (seq 0 k)) (down P) (q, alpha) = Ok (q1, alpha1) /\ length alpha1 = length P /\
    (forall m, k <= m -> nth m alpha1 0%Qc = nth m alpha 0%Qc) /\
    (do r <- apply_H0 i q1; foldM (seq 0 k) (up P alpha1) r) = two_loop i (rev (firstn k P)) q.
Proof.
  induction k as [|k IH]; intros q alpha Hk La.
  - exists q, alpha. split; [reflexivity|]. split; [exact La|]. split; [auto|]. cbn. destruct (apply_H0 i q); reflexivity.
  - rewrite seq_S, rev_app_distr. cbn [rev app Nat.add].
    destruct (nth k P ([], [], 0%Qc)) as [[s y] rho] eqn:EP.
    assert (A : at_ P k = Ok (s, y, rho)) by (rewrite (at_ok P k ([], [], 0%Qc)) by lia; congruence).
    set (a := (v_dot s q * rho)%Qc).
    destruct (IH (v_axpy (- a)%Qc y q) (upd alpha k a)) as (q1 & alpha1 & F & L1 & K & G); [lia|rewrite upd_length; exact La|].
    exists q1, alpha1. split; [|split; [exact L1|split]].
    + cbn [foldM]. unfold down at 1. rewrite A. cbn [bind]. rewrite put_ok by lia. cbn [bind]. exact F.
    + intros m Hm. rewrite K by lia. rewrite upd_nth by lia. destruct (Nat.eqb_spec m k); [lia|reflexivity].
    + rewrite (firstn_snoc P k (s, y, rho)) by (rewrite <- EP; apply nth_error_nth'; lia). rewrite rev_app_distr. cbn [rev app two_loop]. fold a.
      rewrite <- G. rewrite bind_assoc. apply bind_ext. intros r. rewrite foldM_app. apply bind_ext. intros r'. cbn [foldM]. unfold up. rewrite A. cbn [bind].
      rewrite (at_ok alpha1 k 0%Qc) by lia. cbn [bind]. rewrite K by lia. rewrite upd_nth by lia. rewrite Nat.eqb_refl. reflexivity.
Qed.
Lemma h_apply_two_loop B x : h_apply B x = two_loop (h_init B) (rev (h_pairs B)) x.
Proof.
  unfold h_apply. destruct (loops_ok (h_init B) (h_pairs B) (length (h_pairs B)) x (repeat 0%Qc (length (h_pairs B)))) as (q1 & a1 & F & _ & _ & G); [lia|apply repeat_length|].
  rewrite firstn_all in G. rewrite <- G. change (foldM (rev (seq 0 (length (h_pairs B)))) (down (h_pairs B)) (x, repeat 0%Qc (length (h_pairs B)))) with (foldM (rev (seq 0 (length (h_pairs B)))) (fun qa i => down (h_pairs B) qa i) (x, repeat 0%Qc (length (h_pairs B)))) in F.
  unfold down in F. rewrite F. reflexivity.
Qed.

(** ** as a product with a matrix *)
Definition mvf (n : nat) (H : nat -> nat -> Qc) (v : nat -> Qc) (i : nat) : Qc := Sigma n (fun j => H i j * v j)%Qc.
Lemma identity_l n i f : i < n -> Sigma n (fun k => identity i k * f k)%Qc = f i.
Proof. intros Hi. rewrite (Sigma_ext n _ (fun k => (if k =? i then 1 else 0) * f k)%Qc) by (intros k _; unfold identity; rewrite (Nat.eqb_sym i k); reflexivity). apply Sigma_delta. exact Hi. Qed.
Lemma identity_r n j f : j < n -> Sigma n (fun l => f l * identity l j)%Qc = f j.
Proof. intros Hj. rewrite (Sigma_ext n _ (fun l => (if l =? j then 1 else 0) * f l)%Qc) by (intros; unfold identity; ring). apply Sigma_delta. exact Hj. Qed.
Lemma updated_mv n H s y (q : nat -> Qc) i : i < n ->
  let r := (1 / dot n y s)%Qc in
  let a := (r * Sigma n (fun k => nth k s 0 * q k))%Qc in
  let w := mvf n H (fun k => q k - a * nth k y 0)%Qc in
  mvf n (updated n H (s, y)) q i = (w i + (a - r * Sigma n (fun k => nth k y 0 * w k)) * nth i s 0)%Qc.
Proof.
  intros Hi r a w. unfold mvf at 1, updated. cbn [fst snd]. fold r.
  set (sv := fun i => nth i s 0%Qc). set (yv := fun i => nth i y 0%Qc).
  change (fun j => nth j s 0%Qc) with sv. 
  assert (W : forall k, w k = Sigma n (fun j => Sigma n (fun l => H k l * (identity l j - r * yv l * sv j)) * q j)%Qc).
  { intros k. subst w. unfold mvf. symmetry. rewrite (Sigma_ext n _ (fun j => Sigma n (fun l => H k l * (identity l j - r * yv l * sv j) * q j)%Qc)) by (intros; rewrite Sigma_scale_r; reflexivity).
    rewrite Sigma_swap. apply Sigma_ext. intros l Hl.
    rewrite (Sigma_ext n _ (fun j => H k l * (identity l j * q j) - H k l * r * yv l * (sv j * q j))%Qc) by (intros; ring).
    rewrite Sigma_minus, !Sigma_scale, identity_l by exact Hl. unfold a. change (fun k0 => (nth k0 s 0 * q k0)%Qc) with (fun k0 => (sv k0 * q k0)%Qc). unfold yv. ring. }
  assert (S1 : Sigma n (fun j => (Sigma n (fun k => Sigma n (fun l => (identity i k - r * sv i * yv k) * H k l * (identity l j - r * yv l * sv j))) + r * sv i * sv j) * q j)%Qc =
    (Sigma n (fun k => (identity i k - r * sv i * yv k) * w k) + a * sv i)%Qc).
  { rewrite (Sigma_ext n _ (fun j => Sigma n (fun k => Sigma n (fun l => (identity i k - r * sv i * yv k) * H k l * (identity l j - r * yv l * sv j) * q j)) + r * sv i * (sv j * q j))%Qc).
    2:{ intros j Hj. rewrite Qcmult_plus_distr_l. f_equal; [|ring]. rewrite <- Sigma_scale_r. apply Sigma_ext. intros k Hk. rewrite <- Sigma_scale_r. reflexivity. }
    rewrite Sigma_plus, Sigma_scale. f_equal; [|unfold a, sv; ring]. rewrite Sigma_swap. apply Sigma_ext. intros k Hk. rewrite W, <- Sigma_scale. apply Sigma_ext. intros j Hj. rewrite <- Sigma_scale_r, <- Sigma_scale. apply Sigma_ext. intros l Hl. ring. }
  etransitivity; [exact S1|].
  rewrite (Sigma_ext n (fun k => (identity i k - r * sv i * yv k) * w k)%Qc (fun k => identity i k * w k - r * sv i * (yv k * w k))%Qc) by (intros; ring).
  rewrite Sigma_minus, Sigma_scale, identity_l by exact Hi. change (fun k => (nth k y 0 * w k)%Qc) with (fun k => (yv k * w k)%Qc). unfold sv. ring.
Qed.
Definition starts (n : nat) (i : initial) (H0 : nat -> nat -> Qc) : Prop :=
  forall x, length x = n -> exists q, apply_H0 i x = Ok q /\ product_with n H0 x q.
Definition triples (n : nat) (h : list (list Qc * list Qc)) : list (list Qc * list Qc * Qc) := map (fun sy => (fst sy, snd sy, (1 / dot n (snd sy) (fst sy))%Qc)) h.
Lemma two_loop_matrix n i H0 h : starts n i H0 -> steps_ok n h -> forall x, length x = n ->
  exists q, two_loop i (rev (triples n h)) x = Ok q /\ product_with n (inverse_hessian n H0 h) x q.
Proof.
  intros HS. induction h as [|[s y] h IH] using rev_ind; intros OK x Lx; [exact (HS x Lx)|].
  assert (OK' : steps_ok n h) by (intros s' y' I; apply OK, in_or_app; left; exact I).
  destruct (OK s y) as (Ls & Ly & NZ); [apply in_or_app; right; left; reflexivity|].
  unfold triples. rewrite map_app. cbn [map fst snd]. rewrite rev_app_distr. cbn [rev app two_loop]. fold (triples n h).
  set (r := (1 / dot n y s)%Qc). rewrite (v_dot_n n s x Ls). set (a := (dot n s x * r)%Qc).
  destruct (IH OK' (v_axpy (- a)%Qc y x)) as (w & E & Lw & W); [rewrite v_axpy_length; exact Lx|]. rewrite E. cbn [bind].
  eexists. split; [reflexivity|]. split; [rewrite v_axpy_length; exact Lw|]. intros j Hj. rewrite v_axpy_nth by lia.
  unfold inverse_hessian. rewrite fold_left_app. cbn [fold_left]. fold (inverse_hessian n H0 h).
  pose proof (updated_mv n (inverse_hessian n H0 h) s y (fun k => nth k x 0%Qc) j Hj) as U. cbv zeta in U. fold r in U. unfold mvf at 1 in U. rewrite U. clear U.
  assert (A : (r * Sigma n (fun k => nth k s 0 * nth k x 0))%Qc = a) by (unfold a, dot; ring). rewrite A.
  assert (Ww : forall k, k < n -> mvf n (inverse_hessian n H0 h) (fun k => nth k x 0 - a * nth k y 0)%Qc k = nth k w 0%Qc).
  { intros k Hk. rewrite W by exact Hk. apply Sigma_ext. intros l Hl. rewrite v_axpy_nth by lia. ring. }
  rewrite Ww by exact Hj. rewrite (v_dot_n n y w Ly). unfold dot at 1. rewrite (Sigma_ext n (fun k => nth k y 0 * mvf n (inverse_hessian n H0 h) (fun k0 => nth k0 x 0 - a * nth k0 y 0) k)%Qc (fun k => nth k y 0 * nth k w 0)%Qc) by (intros k Hk; rewrite Ww by exact Hk; reflexivity). ring.
Qed.
