(** What is claimed of the BFGS optimiser: matrices, lines and descent. *)
From Coq Require Import QArith Qcanon.
From Verif Require Import Base Sums DenseSpec DiisSpec DavSpec McscfSpec.
Local Open Scope nat_scope.

(** [x] is the point x0 + t p *)
Definition moved (x0 p : list Qc) (t : Qc) (x : list Qc) : Prop :=
  length x = length x0 /\ forall i, i < length x0 -> nth i x 0%Qc = (nth i x0 0 + t * nth i p 0)%Qc.
(** [q] is the product of the matrix and [x] *)
Definition product_with (n : nat) (H : nat -> nat -> Qc) (x q : list Qc) : Prop :=
  length q = n /\ forall i, i < n -> nth i q 0%Qc = Sigma n (fun j => H i j * nth j x 0)%Qc.
(** the BFGS update of an inverse Hessian: (1 - s y'/y.s) H (1 - y s'/y.s) + s s'/y.s *)
Definition updated (n : nat) (H : nat -> nat -> Qc) (sy : list Qc * list Qc) (i j : nat) : Qc :=
  let s := fun i => nth i (fst sy) 0%Qc in
  let y := fun i => nth i (snd sy) 0%Qc in
  let r := (1 / dot n (snd sy) (fst sy))%Qc in
  (Sigma n (fun k => Sigma n (fun l => (identity i k - r * s i * y k) * H k l * (identity l j - r * y l * s j))) + r * s i * s j)%Qc.
(** the approximate inverse Hessian after the steps [h], from the matrix [H0] *)
Definition inverse_hessian (n : nat) (H0 : nat -> nat -> Qc) (h : list (list Qc * list Qc)) : nat -> nat -> Qc := fold_left (updated n) h H0.
Definition scaled_identity (c : Qc) (i j : nat) : Qc := (c * identity i j)%Qc.
(** y.s / y.y of a step *)
Definition step_scale (n : nat) (sy : list Qc * list Qc) : Qc := (dot n (snd sy) (fst sy) / dot n (snd sy) (snd sy))%Qc.
(** steps of [n] components along which the gradient changes *)
Definition steps_ok (n : nat) (h : list (list Qc * list Qc)) : Prop :=
  forall s y, In (s, y) h -> length s = n /\ length y = n /\ dot n y s <> 0%Qc.
Definition positive_curvature (n : nat) (h : list (list Qc * list Qc)) : Prop :=
  forall s y, In (s, y) h -> (0 < dot n y s)%Qc.
Definition nonzero (x : list Qc) : Prop := exists i, i < length x /\ nth i x 0%Qc <> 0%Qc.
(** the matrix is positive definite *)
Definition positive (n : nat) (H : nat -> nat -> Qc) : Prop :=
  forall x, length x = n -> nonzero x -> (0 < expectation n H x)%Qc.
(** gradients have the size of the argument *)
Definition sized_gradient (n : nat) (grad : list Qc -> res (list Qc)) : Prop := forall x g, length x = n -> grad x = Ok g -> length g = n.
(** 2 to the power -k *)
Fixpoint halves (k : nat) : Qc := match k with 0 => 1%Qc | S k => (halves k * Q2Qc (1 # 2))%Qc end.
(** the scale of the first, or the last, of the steps; 1 if there is none *)
Definition first_scale (n : nat) (h : list (list Qc * list Qc)) : Qc := match h with [] => 1%Qc | sy :: _ => step_scale n sy end.
Definition last_scale (n : nat) (h : list (list Qc * list Qc)) : Qc := first_scale n (rev h).
Definition diagonal (d : list Qc) (i j : nat) : Qc := if i =? j then nth i d 0%Qc else 0%Qc.
(** the decrease asked of a step [t] from an objective [f0] with slope [d0]: half of what the
    slope promises, up to 1e-6 *)
Definition decreased (f0 d0 t f : Qc) : Prop := (- Q2Qc (1 # 1000000) < f0 - f - t * (- d0 * Q2Qc (1 # 2)))%Qc.
(** the strong Wolfe conditions with c1 = 1e-4 and c2 = 0.9 *)
Definition strong_wolfe (f0 d0 t f d : Qc) : Prop :=
  (f <= f0 + Q2Qc (1 # 10000) * t * d0)%Qc /\ (- (- Q2Qc (9 # 10) * d0) <= d)%Qc /\ (d <= - Q2Qc (9 # 10) * d0)%Qc.
(** the objective and its gradient can be computed everywhere *)
Definition computable (n : nat) (eval : list Qc -> res Qc) (grad : list Qc -> res (list Qc)) : Prop :=
  forall x, length x = n -> (exists f, eval x = Ok f) /\ exists g, grad x = Ok g /\ length g = n.
(** from [x], at the end of a step, to [x'] : changes of argument and of gradient *)
Definition change (a b : list Qc * list Qc) (sy : list Qc * list Qc) : Prop := moved (fst b) (fst a) (- (1))%Qc (fst sy) /\ moved (snd b) (snd a) (- (1))%Qc (snd sy).
(** [h] are the changes along the path *)
Definition changes (path : list (list Qc * list Qc)) (h : list (list Qc * list Qc)) : Prop :=
  S (length h) = length path /\ forall i, S i < length path -> change (nth i path ([], [])) (nth (S i) path ([], [])) (nth i h ([], [])).
(** a path of points with their gradients: from each, a step against the product of the
    approximate inverse Hessian (whose start [H0] may depend on the steps) and the gradient,
    the first halving of which that decreases the objective enough *)
Definition bfgs_path (n : nat) (eval : list Qc -> res Qc) (grad : list Qc -> res (list Qc)) (H0 : list (list Qc * list Qc) -> nat -> nat -> Qc)
    (path h : list (list Qc * list Qc)) : Prop :=
  changes path h /\ (forall x g, In (x, g) path -> length x = n /\ grad x = Ok g /\ length g = n) /\
  forall i, S i < length path -> let x := fst (nth i path ([], [])) in let g := snd (nth i path ([], [])) in let x' := fst (nth (S i) path ([], [])) in
    exists d f f' k, product_with n (inverse_hessian n (H0 (firstn i h)) (firstn i h)) g d /\ (0 <= dot n g d)%Qc /\ k <= 19 /\ moved x d (- halves k)%Qc x' /\
      eval x = Ok f /\ eval x' = Ok f' /\ (f' <= f)%Qc /\ decreased f (- dot n g d)%Qc (halves k) f' /\
      forall j, j < k -> exists xj fj, moved x d (- halves j)%Qc xj /\ eval xj = Ok fj /\ ~ decreased f (- dot n g d)%Qc (halves j) fj.
(** the gradient of a strictly convex function *)
Definition strictly_monotone (n : nat) (grad : list Qc -> res (list Qc)) : Prop :=
  forall x x' g g' s y, length x = n -> length x' = n -> x <> x' -> grad x = Ok g -> grad x' = Ok g' -> change (x, g) (x', g') (s, y) -> (0 < dot n y s)%Qc.
