(** C33: escaping and unescaping strings. *)
From Coq Require Import List ZArith Lia Bool.
From Verif.Common Require Import Result.
From Verif.Parser Require Import Escape EscapeProofs.
Import ListNotations.
Local Open Scope Z_scope.

(** A string survives escaping and unescaping exactly when no control byte 0-6, 14 or 15 is
    directly followed by a hexadecimal digit: those bytes are written \xN, with one digit. *)
Theorem C33_escape_round_trip_iff : forall s,
  Forall (fun c => 0 <= c < 256) s ->
  (unescape (escape s) = Ok s <->
   ~ exists p c d q, s = p ++ c :: d :: q
       /\ (0 <= c <= 6 \/ c = 14 \/ c = 15)
       /\ (48 <= d <= 57 \/ 97 <= d <= 102 \/ 65 <= d <= 70)).
Proof.
  intros s B. rewrite unescape_escape by exact B.
  assert (A : ambiguous s <-> exists p c d q, s = p ++ c :: d :: q /\ short c /\ hexchar d).
  { clear B. split.
    - induction s as [|c [|d t] IH]; [intros []|intros []|].
      intros [[H1 H2]|H]; [exists [], c, d, t; auto|].
      destruct (IH H) as (p & c' & d' & q & E & X). exists (c :: p), c', d', q. rewrite E. auto.
    - intros (p & c & d & q & -> & X). induction p as [|x p IH]; [left; auto|].
      destruct p; right; exact IH. }
  split.
  - intros E N. injection E as E. apply garbled_id in E; [|lia]. apply E, A. exact N.
  - intros N. f_equal. apply garbled_id; [lia|]. intros X. apply N, A, X.
Qed.

(** The claim for every byte string is false. *)
Theorem C33_escape_round_trip_refuted :
  exists s, Forall (fun c => 0 <= c < 256) s /\ unescape (escape s) = Ok [26] /\ s = [1; 97].
Proof. exists [1; 97]. split; [repeat constructor; lia|]. split; reflexivity. Qed.

(** ... and two different static strings get the same name, hence the same instances. *)
Theorem C33_static_string_names_refuted :
  exists s t, Forall (fun c => 0 <= c < 256) s /\ Forall (fun c => 0 <= c < 256) t
    /\ s <> t /\ static_name s = static_name t.
Proof.
  exists [1; 97], [26]. split; [repeat constructor; lia|]. split; [repeat constructor; lia|]. split; [discriminate|reflexivity].
Qed.

(** Escaped text is printable ASCII, and every quote in it is escaped: it can be put between
    single quotes. *)
Theorem C33_escaped_text_is_printable : forall s,
  Forall (fun c => 0 <= c < 256) s -> Forall (fun x => 32 <= x < 127) (escape s).
Proof.
  intros s B. apply Forall_forall. intros x I. apply in_flat_map in I. destruct I as (c & I & J).
  rewrite Forall_forall in B. eapply escape1_printable; eauto.
Qed.

(** Unescaping any text ends with a string no longer than the text or with the error for an
    invalid \x code. *)
Theorem C33_unescape_total : forall s,
  (exists r, unescape s = Ok r /\ (length r <= length s)%nat) \/ unescape s = Raise ValueError.
Proof.
  intros s. pose proof (unescape_total (S (length s)) s ltac:(lia)) as H. unfold unescape.
  destruct (unescape_ (S (length s)) s); try contradiction; [left; eauto|right; congruence].
Qed.

(** A literal brace doubled by the f-string escape: undoubling gives the text back. *)
Fixpoint undouble (s : list Z) : list Z :=
  match s with
  | a :: ((b :: t) as bt) => if ((a =? 123) || (a =? 125)) && (a =? b) then a :: undouble t else a :: undouble bt
  | s => s
  end.
Theorem C33_fstring_braces_round_trip : forall s start len,
  undouble (escapeFStringBraces s start len) = firstn len (skipn start s).
Proof.
  intros. unfold escapeFStringBraces. generalize (firstn len (skipn start s)). clear.
  induction l as [|c l IH]; [reflexivity|]. cbn [flat_map].
  destruct (c =? 123) eqn:A; [apply Z.eqb_eq in A; subst; cbn [app undouble]; cbn; f_equal; exact IH|].
  destruct (c =? 125) eqn:B; [apply Z.eqb_eq in B; subst; cbn [app undouble]; cbn; f_equal; exact IH|].
  cbn [app undouble]. rewrite A, B. cbn [orb andb].
  destruct (flat_map _ l) eqn:E; [rewrite <- IH; reflexivity|]. f_equal. exact IH.
Qed.

Example round_trip_ex : unescape (escape [1; 103; 255; 92; 39; 10; 65]) = Ok [1; 103; 255; 92; 39; 10; 65].
Proof. reflexivity. Qed.
Example octal_ex : unescape [92; 49; 48; 49; 92; 120; 52; 49] = Ok [65; 65].
Proof. reflexivity. Qed.

Print Assumptions C33_escape_round_trip_iff.
Print Assumptions C33_escape_round_trip_refuted.
Print Assumptions C33_static_string_names_refuted.
Print Assumptions C33_escaped_text_is_printable.
Print Assumptions C33_unescape_total.
Print Assumptions C33_fstring_braces_round_trip.
