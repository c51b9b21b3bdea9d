(** Lemmas on arrays and parallel loops. *)
From Coq Require Import QArith Qcanon Sorting.Permutation.
From Verif Require Import Base Nondet Ham Asci Constraint Mem.
Local Open Scope nat_scope.

Fixpoint upd {A} (l : list A) (i : nat) (x : A) : list A :=
  match l, i with [], _ => [] | _ :: r, 0 => x :: r | y :: r, S j => y :: upd r j x end.
Lemma upd_length {A} l : forall i (x : A), length (upd l i x) = length l.
Proof. induction l; intros [|i] x; cbn; auto. Qed.
Lemma put_ok {A} l : forall i (x : A), i < length l -> put l i x = Ok (upd l i x).
Proof. induction l; intros [|i] x H; cbn in *; try lia; auto. rewrite IHl by lia. reflexivity. Qed.
Lemma put_inv {A} l : forall i (x : A) l', put l i x = Ok l' -> l' = upd l i x /\ i < length l.
Proof.
  induction l; intros [|i] x l' H; cbn in *; try discriminate.
  - injection H as <-. split; auto. lia.
  - destruct (put l i x) eqn:E; cbn [bind] in H; [|discriminate]. injection H as <-.
    apply IHl in E. destruct E as [-> L]. split; auto. lia.
Qed.
Lemma upd_nth {A} l : forall i j (x d : A), i < length l -> nth j (upd l i x) d = if j =? i then x else nth j l d.
Proof.
  induction l; intros [|i] [|j] x d H; cbn in *; try lia; auto. apply IHl. lia.
Qed.
Lemma upd_nth_error {A} l : forall i j (x : A), i < length l ->
  nth_error (upd l i x) j = if j =? i then Some x else nth_error l j.
Proof. induction l; intros [|i] [|j] x H; cbn in *; try lia; auto. apply IHl. lia. Qed.
Lemma at_ok {A} (l : list A) i d : i < length l -> at_ l i = Ok (nth i l d).
Proof. intros H. unfold at_. rewrite (nth_error_nth' l d H). reflexivity. Qed.
Lemma at_nth_error {A} (l : list A) i x : nth_error l i = Some x -> at_ l i = Ok x.
Proof. unfold at_. intros ->. reflexivity. Qed.
Lemma minus_ok a b : b <= a -> minus_ a b = Ok (a - b).
Proof. intros H. unfold minus_. destruct (Nat.ltb_spec a b); [lia|reflexivity]. Qed.
Lemma slice_ok {A} (l : list A) a b : a <= b -> b <= length l -> slice_ l a b = Ok (firstn (b - a) (skipn a l)).
Proof.
  intros H H'. unfold slice_. apply Nat.leb_le in H, H'. rewrite H, H'. reflexivity.
Qed.

Lemma foldM_app {A S} (l m : list A) (f : S -> A -> res S) s :
  foldM (l ++ m) f s = do s' <- foldM l f s; foldM m f s'.
Proof. revert s. induction l; intros s; cbn; auto. destruct (f s a); cbn; auto. Qed.

(** iterations that each update one array element of their own *)
Section CELLS.
  Context {I A : Type} (d : A) (f : list A -> I -> res (list A)) (loc : I -> nat) (g : I -> A -> A).

  Lemma foldM_cells order : forall s L, length s = L -> NoDup (map loc order) ->
    (forall i, In i order -> loc i < L) ->
    (forall s i, In i order -> length s = L -> f s i = Ok (upd s (loc i) (g i (nth (loc i) s d)))) ->
    exists s', foldM order f s = Ok s' /\ length s' = L /\
      (forall i, In i order -> nth (loc i) s' d = g i (nth (loc i) s d)) /\
      (forall p, ~ In p (map loc order) -> nth p s' d = nth p s d).
  Proof.
    induction order as [|i r IH]; intros s L HL ND HB HF; cbn [foldM].
    - exists s. repeat split; auto. intros i [].
    - rewrite HF by (auto; left; auto). cbn [bind].
      cbn [map] in ND. apply NoDup_cons_iff in ND. destruct ND as [Ni ND].
      assert (Li : loc i < length s) by (rewrite HL; apply HB; left; auto).
      destruct (IH (upd s (loc i) (g i (nth (loc i) s d))) L) as (s' & E & L' & R & U); auto.
      { rewrite upd_length; auto. }
      { intros; apply HB; right; auto. }
      { intros; apply HF; auto; right; auto. }
      exists s'. split; [exact E|]. split; [exact L'|]. split.
      + intros j [->|Hj].
        * rewrite U by auto. rewrite upd_nth, Nat.eqb_refl by auto. reflexivity.
        * rewrite R by auto. rewrite upd_nth by auto. destruct (Nat.eqb_spec (loc j) (loc i)) as [e|e]; auto.
          exfalso. apply Ni. rewrite <- e. apply in_map, Hj.
      + intros p Hp. rewrite U by (intros H; apply Hp; right; auto).
        rewrite upd_nth by auto. destruct (Nat.eqb_spec p (loc i)) as [->|e]; auto.
        exfalso. apply Hp. left. reflexivity.
  Qed.

  Lemma parallel_cells its s L : length s = L -> NoDup (map loc its) ->
    (forall i, In i its -> loc i < L) ->
    (forall s i, In i its -> length s = L -> f s i = Ok (upd s (loc i) (g i (nth (loc i) s d)))) ->
    always (parallel_for its f s) (fun s' => length s' = L /\
      (forall i, In i its -> nth (loc i) s' d = g i (nth (loc i) s d)) /\
      (forall p, ~ In p (map loc its) -> nth p s' d = nth p s d)).
  Proof.
    intros HL ND HB HF. split.
    - exists (foldM its f s), its. auto.
    - intros r (order & P & ->).
      destruct (foldM_cells order s L) as (s' & E & L' & R & U); auto.
      { rewrite <- P. exact ND. }
      { intros i Hi. apply HB. rewrite P. exact Hi. }
      { intros s0 i Hi. apply HF. rewrite P. exact Hi. }
      exists s'. split; auto. split; auto. split.
      + intros i Hi. apply R. rewrite <- P. exact Hi.
      + intros p Hp. apply U. intros H. apply Hp. rewrite P. exact H.
  Qed.
End CELLS.

Lemma nth_ext' {A} (l m : list A) d : length l = length m -> (forall i, i < length l -> nth i l d = nth i m d) -> l = m.
Proof. intros L H. apply (nth_ext _ _ d d); auto. Qed.
Lemma nth_skipn {A} (l : list A) : forall a i d, nth i (skipn a l) d = nth (a + i) l d.
Proof. induction l; intros [|a'] i d; cbn; auto. destruct i; auto. Qed.
Lemma nth_firstn {A} (l : list A) : forall a i d, i < a -> nth i (firstn a l) d = nth i l d.
Proof. induction l; intros [|a'] [|i] d H; cbn; auto; try lia. apply IHl. lia. Qed.
Lemma nth_map_seq {A} (f : nat -> A) n i d : i < n -> nth i (map f (seq 0 n)) d = f i.
Proof.
  intros H. rewrite (nth_indep _ d (f 0)) by (rewrite map_length, seq_length; lia).
  rewrite map_nth, seq_nth by lia. reflexivity.
Qed.
