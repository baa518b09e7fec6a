(** The pass manager: codon/cir/transform/manager.{h,cpp}, pass.{h,cpp}.

    A module is any type [M] and an analysis result any type [R]. Passes and analyses are arbitrary
    functions of the module and of getAnalysisResult. Timers are left out. A failed seqassertn is
    [Raise OtherError] (it aborts; builds with NDEBUG do not check). *)
From Coq Require Import List Bool Arith String Ascii DecimalString.
From Verif.Common Require Import Result.
Import ListNotations.
Local Open Scope string_scope.
Local Open Scope res_scope.

(** std::unordered_map with string keys: find, insert / [] = *)
Section Map.
Context {V : Type}.
Definition mlookup (m : list (string * V)) (k : string) : option V :=
  match find (fun e => String.eqb (fst e) k) m with Some e => Some (snd e) | None => None end.
Definition merase (k : string) (m : list (string * V)) : list (string * V) := filter (fun e => negb (String.eqb (fst e) k)) m.
Definition mput (k : string) (v : V) (m : list (string * V)) : list (string * V) := (k, v) :: merase k m.
Definition minsert (k : string) (v : V) (m : list (string * V)) : list (string * V) :=
  match mlookup m k with Some _ => m | None => (k, v) :: m end.
Definition mhas (m : list (string * V)) (k : string) : bool := match mlookup m k with Some _ => true | None => false end.
End Map.

Definition smem (k : string) (l : list string) : bool := existsb (String.eqb k) l.
Fixpoint has_colon (s : string) : bool :=
  match s with EmptyString => false | String c s => if Ascii.eqb c ":"%char then true else has_colon s end.
(** std::to_string *)
Definition to_string (n : nat) : string := NilZero.string_of_uint (Nat.to_uint n).

(** manager.cpp:34-47 *)
Definition getUniqueKey (keys : list (string * nat)) (key : string) : res (string * list (string * nat)) :=
  if has_colon key then Raise OtherError
  else match mlookup keys key with
       | None => Ok (key, mput key 1 keys)
       | Some n => Ok (key ++ ":" ++ to_string (S n), mput key (S n) keys)
       end.

Section Manager.
Context {M R : Type}.

(** pass.h:21-52 (shouldRepeat may depend on what the runs did, here through the module) and
    analyze/analysis.h *)
Record pass := Pass { pkey : string; prun : M -> (string -> option R) -> M; shouldRepeat : M -> nat -> bool }.
Record analysis := Analysis { akey : string; arun : M -> (string -> option R) -> R }.

(** manager.h:42-87 *)
Record passMeta := PassMeta { pm_pass : pass; pm_reqs : list string; pm_invalidates : list string }.
Record analysisMeta := AnalysisMeta { am_analysis : analysis; am_reqs : list string }.
(** manager.h:89-106; the results are part of the running state below *)
Record manager := Manager {
  km : list (string * nat);
  passes : list (string * passMeta);
  analyses : list (string * analysisMeta);
  deps : list (string * list string);
  executionOrder : list string;
  disabled : list string }.
Definition empty_manager (dis : list string) : manager := Manager [] [] [] [] [] dis.

(** manager.cpp:58-61 and 88-91 *)
Fixpoint addDeps (key : string) (reqs : list string) (deps : list (string * list string)) : res (list (string * list string)) :=
  match reqs with
  | [] => Ok deps
  | req :: reqs => match mlookup deps req with
                   | None => Raise OtherError
                   | Some ds => addDeps key reqs (mput req (ds ++ [key])%list deps)
                   end
  end.
(** manager.cpp:66-73: insertion before the first occurrence *)
Fixpoint insert_before (x key : string) (l : list string) : option (list string) :=
  match l with
  | [] => None
  | y :: l => if String.eqb y x then Some (key :: y :: l)
              else match insert_before x key l with Some l => Some (y :: l) | None => None end
  end.
(** manager.cpp:49-76 *)
Definition registerPass (mg : manager) (p : pass) (insertBefore : string) (reqs invalidates : list string)
  : res (string * manager) :=
  if smem (pkey p) (disabled mg) then Ok ("", mg)
  else '(key, km') <- getUniqueKey (km mg) (pkey p) ;;
       deps' <- addDeps key reqs (deps mg) ;;
       order' <- match insertBefore with
                 | EmptyString => Ok (executionOrder mg ++ [key])%list
                 | _ => match insert_before insertBefore key (executionOrder mg) with
                        | Some l => Ok l
                        | None => Raise OtherError
                        end
                 end ;;
       Ok (key, Manager km' (minsert key (PassMeta p reqs invalidates) (passes mg)) (analyses mg) deps' order' (disabled mg)).
(** manager.cpp:78-98 *)
Definition registerAnalysis (mg : manager) (a : analysis) (reqs : list string) : res (string * manager) :=
  if smem (akey a) (disabled mg) then Ok ("", mg)
  else '(key, km') <- getUniqueKey (km mg) (akey a) ;;
       deps' <- addDeps key reqs (deps mg) ;;
       Ok (key, Manager km' (passes mg) (minsert key (AnalysisMeta a reqs) (analyses mg)) (mput key [] deps') (executionOrder mg) (disabled mg)).

(** What happened, for the statements: a pass or analysis ran on a module, seeing some results. *)
Inductive event :=
| EvAnalysis (key : string) (m : M) (seen : string -> option R) (r : R)
| EvPass (key : string) (m : M) (seen : string -> option R).
Record state := State { module : M; results : list (string * R); log : list event }.

(** manager.cpp:130-143; analyses[name] of an unknown name is a null pointer *)
Fixpoint runAnalysis (fuel : nat) (mg : manager) (name : string) (st : state) : res state :=
  match fuel with
  | O => NoFuel
  | S fuel =>
      if mhas (results st) name then Ok st
      else match mlookup (analyses mg) name with
           | None => Undef
           | Some meta =>
               st <- fold_left (fun r dep => st <- r ;; runAnalysis fuel mg dep st) (am_reqs meta) (Ok st) ;;
               let r := arun (am_analysis meta) (module st) (mlookup (results st)) in
               Ok (State (module st) (mput name r (results st))
                     (log st ++ [EvAnalysis name (module st) (mlookup (results st)) r])%list)
           end
  end.

(** manager.cpp:145-158; the sets are iterated in any order: [shuffle] *)
Context (shuffle : list string -> list string).
Definition sinsert (l : list string) (k : string) : list string := if smem k l then l else (l ++ [k])%list.
Definition invalidate_round (dps : list (string * list string)) (open : list string) (rs : list (string * R)) : list string * list (string * R) :=
  fold_left (fun '(newOpen, rs) k =>
               if mhas rs k then (fold_left sinsert match mlookup dps k with Some l => l | None => [] end newOpen, merase k rs)
               else (newOpen, rs)) (shuffle open) ([], rs).
Definition invalidate (mg : manager) (key : string) (rs : list (string * R)) : res (list (string * R)) :=
  loop (S (S (2 * List.length rs)))
    (fun '(open, rs) => match open with
                        | [] => Ok (inr rs)
                        | _ => Ok (inl (invalidate_round (deps mg) open rs))
                        end) ([key], rs).

(** manager.cpp:106-128; the outcome says whether the run ended ([NoFuel]: it was still repeating) *)
Definition afuel (mg : manager) : nat := S (List.length (analyses mg)).
Fixpoint runPass (fuel : nat) (mg : manager) (name : string) (it : nat) (st : state) : state * res unit :=
  match fuel with
  | O => (st, NoFuel)
  | S fuel =>
      match mlookup (passes mg) name with
      | None => (st, Undef)
      | Some meta =>
          match fold_left (fun r dep => st <- r ;; runAnalysis (afuel mg) mg dep st) (pm_reqs meta) (Ok st) with
          | Ok st =>
              let m := prun (pm_pass meta) (module st) (mlookup (results st)) in
              let lg := (log st ++ [EvPass name (module st) (mlookup (results st))])%list in
              match fold_left (fun r inv => rs <- r ;; invalidate mg inv rs) (pm_invalidates meta) (Ok (results st)) with
              | Ok rs =>
                  let st := State m rs lg in
                  if shouldRepeat (pm_pass meta) m (S it) then runPass fuel mg name (S it) st else (st, Ok tt)
              | Raise e => (State m (results st) lg, Raise e)
              | Undef => (State m (results st) lg, Undef)
              | NoFuel => (State m (results st) lg, NoFuel)
              end
          | Raise e => (st, Raise e)
          | Undef => (st, Undef)
          | NoFuel => (st, NoFuel)
          end
      end
  end.
(** manager.cpp:100-104; [fuel] bounds the repetitions of one pass *)
Fixpoint runAll (fuel : nat) (mg : manager) (order : list string) (st : state) : state * res unit :=
  match order with
  | [] => (st, Ok tt)
  | p :: order => match runPass fuel mg p 0 st with
                  | (st, Ok _) => runAll fuel mg order st
                  | r => r
                  end
  end.
Definition run (fuel : nat) (mg : manager) (m : M) : state * res unit := runAll fuel mg (executionOrder mg) (State m [] []).

(** pass.cpp:15-18: a group runs its members one after another *)
Definition groupRun (members : list (M -> (string -> option R) -> M)) : M -> (string -> option R) -> M :=
  fun m seen => fold_left (fun m f => f m seen) members m.

(** A program that sets up a manager: registrations, each of which may use the keys that the
    earlier ones returned. *)
Inductive reg :=
| RegPass (p : pass) (insertBefore : string) (reqs invalidates : list string)
| RegAnalysis (a : analysis) (reqs : list string).
Fixpoint build (mg : manager) (prog : list (list string -> reg)) (keys : list string) : res manager :=
  match prog with
  | [] => Ok mg
  | r :: prog =>
      match r keys with
      | RegPass p b reqs inv => '(k, mg) <- registerPass mg p b reqs inv ;; build mg prog (keys ++ [k])%list
      | RegAnalysis a reqs => '(k, mg) <- registerAnalysis mg a reqs ;; build mg prog (keys ++ [k])%list
      end
  end.
End Manager.
Arguments pass : clear implicits.
Arguments analysis : clear implicits.
Arguments passMeta : clear implicits.
Arguments analysisMeta : clear implicits.
Arguments manager : clear implicits.
Arguments event : clear implicits.
Arguments state : clear implicits.
Arguments reg : clear implicits.

(** manager.cpp:160-243, release and JIT mode; the behaviour of the passes and analyses is given by key
    ([prun_of], [arun_of], and whether to repeat, [rep_of]). *)
Section Standard.
Context {M R : Type} (prun_of : string -> M -> (string -> option R) -> M)
        (arun_of : string -> M -> (string -> option R) -> R) (rep_of : string -> M -> nat -> bool).
Definition mkp (k : string) : pass M R := Pass k (prun_of k) (rep_of k).
Definition mka (k : string) : analysis M R := Analysis k (arun_of k).
Definition key_at (keys : list string) (i : nat) : string := nth i keys "".
Definition std_passes (jit : bool) : list (list string -> reg M R) :=
  ([fun _ => RegPass (mkp "core-pythonic-dict-arithmetic-opt") "" [] [];
   fun _ => RegPass (mkp "core-pythonic-list-addition-opt") "" [] [];
   fun _ => RegPass (mkp "core-pythonic-str-addition-opt") "" [] [];
   fun _ => RegPass (mkp "core-pythonic-generator-argument-opt") "" [] [];
   fun _ => RegPass (mkp "core-pythonic-io-cat-opt") "" [] [];
   fun _ => RegPass (mkp "core-pipeline-lowering") "" [] [];
   fun _ => RegPass (mkp "core-imperative-for-lowering") "" [] [];
   fun _ => RegAnalysis (mka "core-analyses-cfg") [];                                                        (* 7: cfgKey *)
   fun ks => RegAnalysis (mka "core-analyses-rd") [key_at ks 7];                                             (* 8: rdKey *)
   fun ks => RegAnalysis (mka "core-analyses-dominator") [key_at ks 7];                                      (* 9: domKey *)
   fun ks => RegAnalysis (mka "core-analyses-capture") [key_at ks 8; key_at ks 9];                           (* 10: capKey *)
   fun _ => RegAnalysis (mka "core-analyses-global-vars") [];                                                (* 11: globalKey *)
   fun ks => RegAnalysis (mka "core-analyses-side-effect") [key_at ks 10];                                   (* 12: seKey1 *)
   fun ks => RegAnalysis (mka "core-analyses-side-effect") [key_at ks 10];                                   (* 13: seKey2 *)
   fun ks => RegPass (mkp "core-folding-pass-group") "" [key_at ks 12; key_at ks 8; key_at ks 11]
               [key_at ks 12; key_at ks 8; key_at ks 7; key_at ks 11; key_at ks 10];
   fun ks => RegPass (mkp "core-numpy-fusion") "" [key_at ks 8; key_at ks 13]
               [key_at ks 12; key_at ks 8; key_at ks 7; key_at ks 11; key_at ks 10];
   fun _ => RegPass (mkp "core-imperative-for-lowering") "" [] [];
   fun ks => RegPass (mkp "core-numpy-bounds-check-elision") "" [key_at ks 8]
               [key_at ks 12; key_at ks 8; key_at ks 7; key_at ks 11; key_at ks 10];
   fun _ => RegPass (mkp "core-async-for-lowering") "" [] [];
   fun _ => RegPass (mkp "core-await-lowering") "" [] [];
   fun ks => RegPass (mkp "core-parallel-openmp") "" [] [key_at ks 7; key_at ks 11]]
  ++ (if jit then [] else
   [fun ks => RegPass (mkp "core-folding-pass-group") "" [key_at ks 13; key_at ks 8; key_at ks 11]
               [key_at ks 13; key_at ks 8; key_at ks 7; key_at ks 11]]))%list.
Definition std_manager (dis : list string) (jit : bool) : res (manager M R) := build (empty_manager dis) (std_passes jit) [].
End Standard.
