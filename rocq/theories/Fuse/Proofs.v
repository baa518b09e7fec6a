(** Proofs about the fusion of string additions into calls, prints and writes. *)
From Coq Require Import List ZArith Bool Lia.
From Verif.Common Require Import Result.
From Verif.Fuse Require Import Spec Model.
Import ListNotations.

Section Proofs.
Context {U : Type}.
Implicit Types w : world U.

Lemma seq_ext {A B} (m m' : comp U A) (k k' : A -> comp U B) w :
  m w = m' w -> (forall a v, m w = Done a v -> k a v = k' a v) -> seq m k w = seq m' k' w.
Proof. intros E F. unfold seq. rewrite <- E. destruct (m w) as [a v|e v] eqn:M; [now apply F|reflexivity]. Qed.

Lemma seq_assoc {A B C} (m : comp U A) (k : A -> comp U B) (h : B -> comp U C) w :
  seq (seq m k) h w = seq m (fun a => seq (k a) h) w.
Proof. unfold seq. destruct (m w); reflexivity. Qed.

Lemma append_nil n : forall l, append_at n [] l = l.
Proof. induction n as [|n IH]; intros [|x l]; cbn [append_at]; try reflexivity; [now rewrite app_nil_r|now rewrite IH]. Qed.

Lemma append_app n a b : forall l, append_at n (a ++ b) l = append_at n b (append_at n a l).
Proof. induction n as [|n IH]; intros [|x l]; cbn [append_at]; try reflexivity; [now rewrite app_assoc|now rewrite IH]. Qed.

Lemma put_nil fp w : put fp [] w = Done tt w.
Proof. unfold put. rewrite append_nil. now destruct w. Qed.

Lemma each_put fp l : forall w, each (put fp) l w = put fp (concat l) w.
Proof.
  induction l as [|x l IH]; intros w; cbn [each concat]; [now rewrite put_nil|].
  unfold seq. unfold put at 1. rewrite IH. unfold put. cbn [user sent closed]. now rewrite append_app.
Qed.

Lemma each_write fp l w : l <> [] -> each (file_write fp) l w = file_write fp (concat l) w.
Proof.
  intros N. unfold file_write at 2. destruct (nth fp (closed w) true) eqn:C.
  - destruct l as [|x l]; [congruence|]. cbn [each]. unfold seq, file_write. now rewrite C.
  - clear N. rewrite <- each_put. revert w C. induction l as [|x l IH]; intros w C; cbn [each]; [reflexivity|].
    unfold seq. unfold file_write at 1. rewrite C. unfold put at 1 3. apply IH. exact C.
Qed.

Lemma concat_joined l : concat (joined [] l) = concat l.
Proof.
  induction l as [|x l IH]; [reflexivity|]. destruct l as [|y l]; [reflexivity|].
  change (joined [] (x :: y :: l)) with (x :: [] :: joined [] (y :: l)). cbn [concat app] in *. now rewrite IH.
Qed.

Section Parts.
Context (P : parts U).

Lemma eval_cat args w : eval P (Cat args) w = seq (evals P args) (fun xs => ret (concat xs)) w.
Proof. reflexivity. Qed.

Lemma evals_cons e l w : evals P (e :: l) w = seq (eval P e) (fun x => seq (evals P l) (fun xs => ret (x :: xs))) w.
Proof. reflexivity. Qed.

Lemma evals_app l1 l2 : forall w, evals P (l1 ++ l2) w = seq (evals P l1) (fun x => seq (evals P l2) (fun y => ret (x ++ y))) w.
Proof.
  induction l1 as [|e l1 IH]; intros w; cbn [app].
  - unfold seq. cbn. destruct (evals P l2 w); reflexivity.
  - rewrite evals_cons. unfold seq. rewrite evals_cons. unfold seq. destruct (eval P e w) as [x v|]; [|reflexivity]. rewrite IH. unfold seq.
    destruct (evals P l1 v) as [xs v'|]; [|reflexivity]. unfold ret. destruct (evals P l2 v'); reflexivity.
Qed.

Lemma evals_length l : forall w xs v, evals P l w = Done xs v -> length xs = length l.
Proof.
  induction l as [|e l IH]; intros w xs v E; [inversion E; reflexivity|]. rewrite evals_cons in E. unfold seq in E.
  destruct (eval P e w) as [x v1|]; [|discriminate]. destruct (evals P l v1) as [ys v2|] eqn:E2; [|discriminate].
  inversion E; subst. cbn [length]. f_equal. exact (IH _ _ _ E2).
Qed.

Lemma evals_congr before e e' after : (forall w, eval P e w = eval P e' w) ->
  forall w, evals P (before ++ e :: after) w = evals P (before ++ e' :: after) w.
Proof.
  intros E. induction before as [|b before IH]; intros w; cbn [app]; rewrite !evals_cons.
  - apply seq_ext; [apply E|reflexivity].
  - apply seq_ext; [reflexivity|]. intros a v _. apply seq_ext; [apply IH|reflexivity].
Qed.

Lemma eval_inspect e : own_add e = true -> forall w, seq (evals P (inspect e)) (fun xs => ret (concat xs)) w = eval P e w.
Proof.
  assert (ATOM : forall e w, seq (evals P [e]) (fun xs => ret (concat xs)) w = eval P e w).
  { intros e0 w. unfold seq. rewrite evals_cons. unfold seq. destruct (eval P e0 w) as [x v|]; [|reflexivity].
    cbn. now rewrite app_nil_r. }
  induction e as [s|n|f a IHa b IHb|args|n]; intros O w; try apply ATOM.
  cbn [own_add] in O. apply andb_prop in O as [O Ob]. apply andb_prop in O as [Of Oa]. destruct f as [n|]; [discriminate|].
  specialize (IHa Oa). specialize (IHb Ob). cbn [inspect eval].
  unfold seq. rewrite evals_app. unfold seq in *. rewrite <- IHa. destruct (evals P (inspect a) w) as [xs v|]; [|reflexivity].
  unfold ret at 3. cbv beta iota. rewrite <- IHb. destruct (evals P (inspect b) v) as [ys v'|]; [|reflexivity].
  unfold ret. now rewrite concat_app.
Qed.

Lemma handle_add_eval v v' : handle_add v = Some v' -> own_add v = true -> forall w, eval P v w = eval P v' w.
Proof.
  destruct v as [s|n|f a b|args|n]; try discriminate. unfold handle_add. cbv zeta.
  destruct (Nat.ltb 2 (length (inspect (Add f a b)))); [|discriminate]. intros X O w. inversion X; subst.
  rewrite eval_cat. symmetry. exact (eval_inspect (Add f a b) O w).
Qed.

Lemma step_expr_eval e e' : step_expr e e' -> own_add e = true -> forall w, eval P e w = eval P e' w.
Proof.
  induction 1 as [v v' H|f a a' b S1 IH|f a b b' S1 IH|before e e' after S1 IH]; intros O w.
  - now apply handle_add_eval.
  - cbn [own_add] in O. apply andb_prop in O as [O _]. apply andb_prop in O as [_ O]. cbn [eval].
    apply seq_ext; [now apply IH|reflexivity].
  - cbn [own_add] in O. apply andb_prop in O as [_ O]. cbn [eval].
    apply seq_ext; [reflexivity|]. intros x v _. apply seq_ext; [now apply IH|reflexivity].
  - cbn [own_add] in O. rewrite forallb_app in O. apply andb_prop in O as [_ O]. cbn [forallb] in O. apply andb_prop in O as [O _].
    rewrite !eval_cat. apply seq_ext; [|reflexivity]. apply evals_congr. now apply IH.
Qed.
End Parts.

Lemma sexp_ind' (Q : sexp -> Prop) : (forall s, Q (Lit s)) -> (forall n, Q (Some_text n)) ->
  (forall f a b, Q a -> Q b -> Q (Add f a b)) -> (forall args, Forall Q args -> Q (Cat args)) -> (forall n, Q (CatItems n)) ->
  forall e, Q e.
Proof.
  intros A B C D E. fix F 1. destruct e as [s|n|f a b|args|n]; [apply A|apply B|apply C; apply F| |apply E].
  apply D. induction args as [|x l IH]; constructor; [apply F|exact IH].
Qed.

Lemma plain_own e : plain e = true -> own_add e = true.
Proof.
  induction e as [s|n|f a b IHa IHb|args IH|n] using sexp_ind'; intros H; try reflexivity.
  - cbn [plain own_add] in *. apply andb_prop in H as [H Hb]. apply andb_prop in H as [Hf Ha].
    rewrite Hf, IHa, IHb by assumption. reflexivity.
  - cbn [plain own_add] in *. apply andb_prop in H as [_ H]. rewrite forallb_forall in *. rewrite Forall_forall in IH.
    intros x I. apply IH; [exact I|now apply H].
Qed.

Lemma plain_inspect e : plain e = true -> forallb plain (inspect e) = true /\ inspect e <> [].
Proof.
  induction e as [s|n|f a IHa b IHb|args|n]; intros H; cbn [inspect].
  1,2,4,5: split; [cbn [forallb]; now rewrite H|discriminate].
  cbn [plain] in H. apply andb_prop in H as [H Hb]. apply andb_prop in H as [Hf Ha].
  destruct (IHa Ha) as [A1 A2], (IHb Hb) as [B1 B2]. rewrite forallb_app, A1, B1. split; [reflexivity|].
  destruct (inspect a); [congruence|discriminate].
Qed.

Lemma step_expr_plain e e' : step_expr e e' -> plain e = true -> plain e' = true.
Proof.
  induction 1 as [v v' H|f a a' b S1 IH|f a b b' S1 IH|before e e' after S1 IH]; intros O.
  - destruct v as [s|n|f a b|args|n]; try discriminate. unfold handle_add in H. cbv zeta in H.
    destruct (Nat.ltb 2 (length (inspect (Add f a b)))); [|discriminate]. inversion H; subst.
    apply plain_inspect in O as [A B]. cbn [plain]. change (inspect (Add f a b)) with (inspect a ++ inspect b) in *.
    destruct (inspect a ++ inspect b); [congruence|]. rewrite A. reflexivity.
  - cbn [plain] in *. apply andb_prop in O as [O Ob]. apply andb_prop in O as [Of Oa]. now rewrite Of, Ob, IH.
  - cbn [plain] in *. apply andb_prop in O as [O Ob]. apply andb_prop in O as [Of Oa]. now rewrite Of, Oa, IH.
  - cbn [plain] in *. apply andb_prop in O as [_ O]. rewrite forallb_app in *. cbn [forallb] in *.
    apply andb_prop in O as [O1 O]. apply andb_prop in O as [O2 O3]. rewrite O1, O3, IH by assumption. now destruct before.
Qed.

Lemma plain_mid before e e' after : forallb plain (before ++ e :: after) = true -> (plain e = true -> plain e' = true) ->
  plain e = true /\ forallb plain (before ++ e' :: after) = true.
Proof.
  rewrite !forallb_app. cbn [forallb]. intros O F. apply andb_prop in O as [O1 O]. apply andb_prop in O as [O2 O3].
  split; [exact O2|]. now rewrite O1, O3, F.
Qed.

Lemma step_stmt_plain s s' : step_stmt s s' -> plain_stmt s = true -> plain_stmt s' = true.
Proof.
  destruct 1 as [s s' H|s s' H|before e e' after sep fin file S1|args e e' fin file S1|args sep e e' file S1|file e e' S1|file before e e' after S1|n e e' S1];
    intros O.
  - destruct s as [args sep fin file|? ? ? ?|? ?|? ?|? ?|? ?]; try discriminate. destruct args as [|a [|? ?]]; try discriminate; [|destruct a; discriminate].
    destruct a as [?|?|? ? ?|args|n]; try discriminate; inversion H; subst; cbn [plain_stmt forallb plain] in *.
    apply andb_prop in O as [O O3]. apply andb_prop in O as [O O2]. rewrite andb_true_r in O. apply andb_prop in O as [_ O]. now rewrite O, O3.
  - destruct s as [? ? ? ?|? ? ? ?|file e|? ?|? ?|? ?]; try discriminate. destruct e as [?|?|? ? ?|args|n]; try discriminate; inversion H; subst.
    exact O.
  - cbn [plain_stmt] in *. apply andb_prop in O as [O O3]. apply andb_prop in O as [O O2].
    apply plain_mid with (e' := e') in O as [_ ->]; [now rewrite O2, O3|now apply step_expr_plain].
  - cbn [plain_stmt] in *. exfalso. apply andb_prop in O as [O O3]. apply andb_prop in O as [O O2].
    destruct e; try discriminate. inversion S1; subst. discriminate.
  - cbn [plain_stmt] in *. apply andb_prop in O as [O O3]. rewrite O. cbn [andb]. eapply step_expr_plain; eassumption.
  - cbn [plain_stmt] in *. eapply step_expr_plain; eassumption.
  - cbn [plain_stmt] in *. apply andb_prop in O as [O O2].
    apply plain_mid with (e' := e') in O2 as [_ ->]; [|now apply step_expr_plain]. now destruct before.
  - cbn [plain_stmt] in *. eapply step_expr_plain; eassumption.
Qed.

Section Run.
Context (P : parts U) (used : nat -> text -> comp U unit).

Lemma run_print args sep fin file s' : handle_print (Print args sep fin file) = Some s' -> plain_stmt (Print args sep fin file) = true ->
  forall w, run P used (Print args sep fin file) w = run P used s' w.
Proof.
  intros H O w. destruct args as [|a [|? ?]]; try discriminate; [|destruct a; discriminate].
  destruct a as [?|?|? ? ?|args|n]; try discriminate; inversion H; subst.
  cbn [plain_stmt] in O. apply andb_prop in O as [O _]. apply andb_prop in O as [_ O]. destruct sep as [s| | | |]; try discriminate.
  cbn [run]. unfold seq. rewrite evals_cons. unfold seq. rewrite eval_cat. unfold seq.
  destruct (evals P args w) as [xs v|]; [|reflexivity]. cbn [evals eval]. unfold ret.
  destruct (eval P fin v) as [t v1|]; [|reflexivity]. destruct (some_file P file v1) as [fp v2|]; [|reflexivity].
  unfold printed. rewrite !each_put, !concat_app, concat_joined. f_equal. cbn. now rewrite app_nil_r.
Qed.

Lemma run_write file e s' : handle_write (Write file e) = Some s' -> plain e = true ->
  forall w, run P used (Write file e) w = run P used s' w.
Proof.
  intros H O w. destruct e as [?|?|? ? ?|args|n]; try discriminate; inversion H; subst. cbn [run].
  apply seq_ext; [reflexivity|]. intros fp v _. unfold seq. rewrite eval_cat. unfold seq.
  destruct (evals P args v) as [xs v1|] eqn:E; [|reflexivity]. unfold ret. symmetry. apply each_write.
  apply evals_length in E. cbn [plain] in O. destruct args; [discriminate|]. now destruct xs.
Qed.

Lemma step_stmt_run s s' : step_stmt s s' -> plain_stmt s = true -> forall w, run P used s w = run P used s' w.
Proof.
  destruct 1 as [s s' H|s s' H|before e e' after sep fin file S1|args e e' fin file S1|args sep e e' file S1|file e e' S1|file before e e' after S1|n e e' S1];
    intros O w.
  - destruct s; try discriminate. now apply run_print.
  - destruct s; try discriminate. now apply run_write.
  - cbn [plain_stmt] in O. apply andb_prop in O as [O O3]. apply andb_prop in O as [O O2].
    apply plain_mid with (e' := e') in O as [O _]; [|now apply step_expr_plain].
    cbn [run]. apply seq_ext; [|reflexivity]. apply evals_congr. apply step_expr_eval; [exact S1|now apply plain_own].
  - exfalso. cbn [plain_stmt] in O. apply andb_prop in O as [O O3]. apply andb_prop in O as [O O2].
    destruct e; try discriminate. inversion S1; subst. discriminate.
  - cbn [plain_stmt] in O. apply andb_prop in O as [O O3]. cbn [run].
    apply seq_ext; [reflexivity|]. intros xs v _. apply seq_ext; [reflexivity|]. intros s v1 _.
    apply seq_ext; [|reflexivity]. apply step_expr_eval; [exact S1|now apply plain_own].
  - cbn [plain_stmt] in O. cbn [run]. apply seq_ext; [reflexivity|]. intros fp v _.
    apply seq_ext; [|reflexivity]. apply step_expr_eval; [exact S1|now apply plain_own].
  - cbn [plain_stmt] in O. apply andb_prop in O as [_ O]. apply plain_mid with (e' := e') in O as [O _]; [|now apply step_expr_plain].
    cbn [run]. apply seq_ext; [reflexivity|]. intros fp v _. apply seq_ext; [|reflexivity]. apply evals_congr.
    apply step_expr_eval; [exact S1|now apply plain_own].
  - cbn [plain_stmt] in O. cbn [run]. apply seq_ext; [|reflexivity]. apply step_expr_eval; [exact S1|now apply plain_own].
Qed.

Lemma runs_congr before s s' after : (forall w, run P used s w = run P used s' w) ->
  forall w, runs P used (before ++ s :: after) w = runs P used (before ++ s' :: after) w.
Proof.
  intros E. unfold runs. induction before as [|b before IH]; intros w; cbn [app each].
  - apply seq_ext; [apply E|reflexivity].
  - apply seq_ext; [reflexivity|]. intros a v _. apply IH.
Qed.
End Run.

Theorem steps_run p q : steps p q -> forallb plain_stmt p = true ->
  forall P used w, runs (U := U) P used p w = runs P used q w.
Proof.
  induction 1 as [p|p q r S1 S2 IH]; intros O P used w; [reflexivity|].
  destruct S1 as [before s s' after S1]. rewrite forallb_app in O. cbn [forallb] in O.
  apply andb_prop in O as [O1 O]. apply andb_prop in O as [O2 O3].
  rewrite <- IH.
  - apply runs_congr. now apply step_stmt_run.
  - rewrite forallb_app. cbn [forallb]. rewrite O1, O3, (step_stmt_plain _ _ S1 O2). reflexivity.
Qed.
End Proofs.
