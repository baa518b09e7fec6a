(** Properties of matching, splitting and replacing with regular expressions (C79). *)
From Coq Require Import List ZArith Bool Lia.
From Verif.Common Require Import Result.
From Verif.Re Require Import Spec Model Proofs.
Import ListNotations.
Local Open Scope Z_scope.

(** The specification determines the matches. *)
Theorem C79_matches_unique : forall n p pos b l l', scan n p pos b l -> scan n p pos b l' -> l = l'.
Proof. intros n p pos b l l' H H'. exact (scan_unique n p pos b l H l' H'). Qed.

(** C79: for every pattern, [finditer] comes to an end and gives real matches, in order and
    without overlap, within the part of the text asked for. *)
Theorem C79_finditer_ends : forall p n pos endpos fuel, 0 <= n < Z.of_nat fuel -> proper (clamp n endpos n) p ->
  exists ms, finditer fuel p n pos endpos = Ok ms /\
    (ms = [] \/ ordered (clamp n endpos n) (clamp n pos 0) ms) /\ Forall (fun m => at_ p (fst m) = Some (snd m)) ms.
Proof.
  intros p n pos endpos fuel F P. unfold finditer. destruct (Z.ltb_spec (clamp n endpos n) (clamp n pos 0)).
  - exists []. split; [reflexivity|]. split; [now left|constructor].
  - assert (0 <= clamp n pos 0) by (unfold clamp; destruct pos; lia). assert (clamp n endpos n <= n) by (unfold clamp; destruct endpos; lia).
    destruct (loop_total _ p P fuel (clamp n pos 0) ltac:(lia) ltac:(lia)) as (ms & E & O & A). exists ms. split; [assumption|]. split; [now right|assumption].
Qed.

(** C79: [finditer] gives the matches that Python gives, if no empty match follows a position
    where nothing matches and an empty match is preferred only where nothing else matches. Both
    hold for patterns that match no empty text, and for repetitions like [x*].
    Full statement: for every pattern; refuted below. *)
Theorem C79_finditer_partial : forall p n pos endpos fuel, 0 <= n < Z.of_nat fuel -> proper (clamp n endpos n) p ->
  clamp n pos 0 <= clamp n endpos n -> steady p (clamp n pos 0) ->
  exists ms, finditer fuel p n pos endpos = Ok ms /\ scan (clamp n endpos n) p (clamp n pos 0) None ms.
Proof.
  intros p n pos endpos fuel F P L St. unfold finditer. destruct (Z.ltb_spec (clamp n endpos n) (clamp n pos 0)); [lia|].
  assert (0 <= clamp n pos 0) by (unfold clamp; destruct pos; lia). assert (clamp n endpos n <= n) by (unfold clamp; destruct endpos; lia).
  apply (loop_scan _ p (clamp n pos 0)); try assumption; lia.
Qed.
(** Two classes of patterns that meet the condition. *)
Theorem C79_steady_never_empty : forall p pos, (forall s, at_ p s <> Some s) -> steady p pos.
Proof. intros p pos H s E. now apply H in E. Qed.
Theorem C79_steady_everywhere : forall p pos n, proper n p -> 0 <= pos -> (forall s, pos <= s <= n -> at_ p s <> None) ->
  (forall s, at_ p s = Some s -> pos <= s /\ ne p s = None) -> steady p pos.
Proof.
  intros p pos n (P & _) L H G s E. destruct (G s E) as (A & B). split; [assumption|]. destruct (Z.eq_dec s pos); [now left|right].
  apply H. destruct (P s s E). lia.
Qed.

(** C79: [split] gives the texts between the matches and the groups of the matches, [subn]
    replaces the matches and counts them, at most as many as asked for; for every pattern. *)
Theorem C79_split : forall p text groups maxsplit fuel, proper (Z.of_nat (length text)) p -> Z.of_nat (length text) < Z.of_nat fuel ->
  exists ms, finditer fuel p (Z.of_nat (length text)) None None = Ok ms /\
    split fuel p groups text maxsplit = Ok (between text Some groups 0 (wanted maxsplit ms)).
Proof.
  intros p text groups maxsplit fuel P F. destruct (split_fun fuel p Some groups text maxsplit P F) as (ms & E & _ & Es). exists ms. split; [assumption|].
  unfold split. rewrite Es. reflexivity.
Qed.
Theorem C79_subn : forall p text repl count fuel, proper (Z.of_nat (length text)) p -> Z.of_nat (length text) < Z.of_nat fuel ->
  exists ms, finditer fuel p (Z.of_nat (length text)) None None = Ok ms /\
    subn fuel p repl text count = Ok (replaced text repl 0 (wanted count ms), Z.of_nat (length (wanted count ms))) /\
    sub fuel p repl text count = Ok (replaced text repl 0 (wanted count ms)).
Proof.
  intros p text repl count fuel P F. destruct (split_fun fuel p (fun x => x) (fun m => [repl m]) text count P F) as (ms & E & _ & Es). exists ms. split; [assumption|].
  unfold sub, subn. rewrite Es. cbn [bind fst snd]. rewrite concat_between. now split.
Qed.
(** C79: replacing each match by itself changes nothing. *)
Theorem C79_sub_identity : forall p text fuel, proper (Z.of_nat (length text)) p -> Z.of_nat (length text) < Z.of_nat fuel ->
  sub fuel p (fun m => part text (fst m) (snd m)) text 0 = Ok text.
Proof.
  intros p text fuel P F. destruct (split_fun fuel p (fun x => x) (fun m => [part text (fst m) (snd m)]) text 0 P F) as (ms & E & O & Es).
  unfold sub, subn. rewrite Es. cbn [bind fst snd]. rewrite (concat_between text (fun m => part text (fst m) (snd m))).
  unfold wanted. cbn [Z.eqb]. rewrite (replaced_self _ text ms 0 O ltac:(lia)). reflexivity.
Qed.
(** C79: [findall] gives the texts of the matches Python gives, under the same condition. *)
Theorem C79_findall_partial : forall p text fuel, Z.of_nat (length text) < Z.of_nat fuel -> proper (Z.of_nat (length text)) p -> steady p 0 ->
  exists ms, findall fuel p text None None = Ok (map (fun m => part text (fst m) (snd m)) ms) /\ scan (Z.of_nat (length text)) p 0 None ms.
Proof.
  intros p text fuel F P St. destruct (C79_finditer_partial p (Z.of_nat (length text)) None None fuel) as (ms & E & Sc); try assumption; cbn [clamp]; try lia.
  exists ms. unfold findall. rewrite E. now split.
Qed.

(** A case: [b*] in "abbc". *)
Definition bstar : pattern :=
  {| at_ := fun s => if s =? 1 then Some 3 else if s =? 2 then Some 3 else if (0 <=? s) && (s <=? 4) then Some s else None;
     ne := fun s => if s =? 1 then Some 3 else if s =? 2 then Some 3 else None |}.
Example C79_case : proper 4 bstar /\ steady bstar 0 /\ finditer 5 bstar 4 None None = Ok [(0, 0); (1, 3); (3, 3); (4, 4)] /\
  subn 5 bstar (fun _ => [45]) [97; 98; 98; 99] 3 = Ok ([45; 97; 45; 45; 99], 3) /\
  split 5 bstar (fun _ => []) [97; 98; 98; 99] 0 = Ok [Some []; Some [97]; Some []; Some [99]; Some []].
Proof.
  assert (B : forall s, at_ bstar s = if s =? 1 then Some 3 else if s =? 2 then Some 3 else if (0 <=? s) && (s <=? 4) then Some s else None) by reflexivity.
  assert (N : forall s, ne bstar s = if s =? 1 then Some 3 else if s =? 2 then Some 3 else None) by reflexivity.
  split; [|split; [|repeat split; vm_compute; reflexivity]].
  - split; [|split; [|split]].
    + intros s e. rewrite B. destruct (Z.eqb_spec s 1); [intros X; inversion X; lia|]. destruct (Z.eqb_spec s 2); [intros X; inversion X; lia|].
      destruct (Z.leb_spec 0 s); [|discriminate]. destruct (Z.leb_spec s 4); [|discriminate]. cbn [andb]. intros X; inversion X; lia.
    + intros s e. rewrite N. destruct (Z.eqb_spec s 1); [intros X; inversion X; lia|]. destruct (Z.eqb_spec s 2); [intros X; inversion X; lia|]. discriminate.
    + intros s e. rewrite B, N. destruct (s =? 1); [auto|]. destruct (s =? 2); [auto|]. destruct ((0 <=? s) && (s <=? 4)); [|discriminate]. intros X L. inversion X. lia.
    + intros s. rewrite B, N. destruct (s =? 1); [discriminate|]. destruct (s =? 2); [discriminate|]. reflexivity.
  - intros s. rewrite !B, N. destruct (Z.eqb_spec s 1) as [->|]; [discriminate|]. destruct (Z.eqb_spec s 2) as [->|]; [discriminate|].
    destruct (Z.leb_spec 0 s); [|discriminate]. destruct (Z.leb_spec s 4); [|discriminate]. intros _. split; [reflexivity|].
    destruct (Z.eq_dec s 0); [now left|right]. destruct (Z.eqb_spec (s - 1) 1); [discriminate|]. destruct (Z.eqb_spec (s - 1) 2); [discriminate|].
    destruct (Z.leb_spec 0 (s - 1)); [|lia]. destruct (Z.leb_spec (s - 1) 4); [|lia]. discriminate.
Qed.

(** C79: [re.sub("$", "!", "ab")] is "ab!!": an empty match found further on is found twice. *)
Definition dollar : pattern := {| at_ := fun s => if s =? 2 then Some 2 else None; ne := fun _ => None |}.
Theorem C79_empty_refuted : proper 2 dollar /\ scan 2 dollar 0 None [(2, 2)] /\
  finditer 3 dollar 2 None None = Ok [(2, 2); (2, 2)] /\ sub 3 dollar (fun _ => [33]) [97; 98] 0 = Ok [97; 98; 33; 33].
Proof.
  split; [|split; [|split; vm_compute; reflexivity]].
  - split; [|split; [|split]]; try discriminate; cbn; intros s.
    + intros e. destruct (Z.eqb_spec s 2); [|discriminate]. intros H. inversion H. lia.
    + intros e. destruct (Z.eqb_spec s 2); [|discriminate]. intros H. inversion H. lia.
    + reflexivity.
  - apply scan_next; [lia|reflexivity| |].
    + intros s' H. cbn. destruct (Z.eqb_spec s' 2); [lia|reflexivity].
    + cbn [Z.eqb Pos.eqb]. constructor. intros s H. assert (s = 2) by lia. subst. reflexivity.
Qed.
(** C79: [re.findall("|a", "a")] misses the "a": after an empty match, a longer one at the same
    place is not looked for. *)
Definition empty_or_a : pattern := {| at_ := fun s => if (s =? 0) || (s =? 1) then Some s else None; ne := fun s => if s =? 0 then Some 1 else None |}.
Theorem C79_alternative_refuted : proper 1 empty_or_a /\ scan 1 empty_or_a 0 None [(0, 0); (0, 1); (1, 1)] /\
  finditer 2 empty_or_a 1 None None = Ok [(0, 0); (1, 1)].
Proof.
  split; [|split; [|vm_compute; reflexivity]].
  - split; [|split; [|split]]; cbn; intros s.
    + intros e. destruct (Z.eqb_spec s 0), (Z.eqb_spec s 1); cbn; intros X; inversion X; lia.
    + intros e. destruct (Z.eqb_spec s 0); intros X; inversion X; lia.
    + intros e. destruct (Z.eqb_spec s 0), (Z.eqb_spec s 1); cbn; intros X; inversion X; lia.
    + destruct (Z.eqb_spec s 0), (Z.eqb_spec s 1); cbn; try discriminate; reflexivity.
  - apply scan_next; [lia|reflexivity|intros; lia|]. cbn [Z.eqb].
    apply scan_next; [lia|reflexivity|intros; lia|]. cbn [Z.eqb].
    apply scan_next; [lia|reflexivity|intros; lia|]. cbn [Z.eqb Pos.eqb].
    constructor. intros s H. assert (s = 1) by lia. subst. reflexivity.
Qed.

Print Assumptions C79_matches_unique.
Print Assumptions C79_finditer_ends.
Print Assumptions C79_finditer_partial.
Print Assumptions C79_steady_never_empty.
Print Assumptions C79_steady_everywhere.
Print Assumptions C79_split.
Print Assumptions C79_subn.
Print Assumptions C79_sub_identity.
Print Assumptions C79_findall_partial.
Print Assumptions C79_empty_refuted.
Print Assumptions C79_alternative_refuted.
