(** Building the control flow graph of a function: codon/cir/analyze/dataflow/cfg.{h,cpp}.

    Not modelled: pipelines (rewritten to for loops first), the schedule expressions of parallel loops,
    custom nodes.  The identifiers of the nodes are part of the tree (including those of the synthetic
    instructions the builder makes); [seenIds] (cfg.h:528-534) has no effect when they differ. *)
From Coq Require Import List Bool Arith.
From Verif.Flow Require Import Graph Reach.
Import ListNotations.

(** codon/cir/{value,const,instr,flow}.h, by what the builder does with them *)
Inductive leaf := LRead (x : nat) | LPtr (x : nat) | LConst.
Inductive node :=
| Leaf (i : nat) (k : leaf)                      (* VarValue, PointerValue, constants, StackAlloc, TypeProperty, YieldIn *)
| Op (i : nat) (args : list node)                (* Call (callee first), Extract, Insert, Yield, Await, FlowInstr *)
| Assign (i x : nat) (rhs : node)
| Series (l : list node)
| If (c a : node) (b : option node)
| While (lid : nat) (c b : node)
| For (lid i x : nat) (raises : bool) (iter b : node)  (* [raises]: advancing the iterator can raise *)
| ImpFor (lid i j x : nat) (start stop b : node)
| Try (b : node) (cs : list (option (nat * nat) * node)) (el fin : option node) (* catches: id and variable, handler *)
| Ternary (i : nat) (c a b : node)
| Break (i : nat) (l : option nat)
| Continue (i : nat) (l : option nat)
| Return (i : nat) (v : option node)
| Throw (i : nat) (v : option node).

(** Value::getId, for the nodes that can be the right-hand side of an assignment *)
Definition nid (e : node) : nat :=
  match e with
  | Leaf i _ | Op i _ | Assign i _ _ | Ternary i _ _ _ | Break i _ | Continue i _ | Return i _ | Throw i _ => i
  | _ => 0
  end.
Definition leaf_kind (k : leaf) : kind := match k with LRead x => KUse x | LPtr x => KPtr x | LConst => KOther end.
(** The instructions the builder inserts. *)
Definition assign_item (i x : nat) (rhs : node) : item := Item i (KDef x (Some (nid rhs))).
Definition catch_items (v : option (nat * nat)) : list item := match v with Some (i, x) => [Item i (KDef x None)] | None => [] end.

(** The graph under construction (cfg.h:300-330): blocks are numbered in order of creation *)
Record st := St { sz : nat; its : nat -> list item; suc : nat -> list nat; cur : nat }.
Definition put {A} (f : nat -> A) (b : nat) (v : A) : nat -> A := fun c => if Nat.eqb c b then v else f c.
(** cfg.h:400-406 newBlock, without and with setCur *)
Definition newb (s : st) : st := St (S (sz s)) (put (its s) (sz s) []) (put (suc s) (sz s) []) (cur s).
Definition goto (b : nat) (s : st) : st := St (sz s) (its s) (suc s) b.
Definition newc (s : st) : st := goto (sz s) (newb s).
(** cfg.h:93-96 successors_insert *)
Definition edge (b c : nat) (s : st) : st := St (sz s) (its s) (put (suc s) b (if memb c (suc s b) then suc s b else c :: suc s b)) (cur s).
(** cfg.h:73-76 push_back *)
Definition pushb (b : nat) (v : item) (s : st) : st := St (sz s) (put (its s) b (its s b ++ [v])) (suc s) (cur s).

(** cfg.h:480-481: [tryCatchStack], innermost first: the route block and the finally block *)
Definition tcs : Type := list (nat * option nat).
(** cfg.h:468-483: [loopStack], innermost first; [depth] is tcIndex + 1 *)
Record loopb := Lp { next : nat; fini : nat; lid : nat; depth : nat }.

(** cfg.cpp:438-449 *)
Definition insert (tc : tcs) (v : item) (s : st) : st :=
  match tc with
  | [] => pushb (cur s) v s
  | (route, _) :: _ =>
      let original := cur s in
      let s := newc s in
      let s := edge original (cur s) s in
      let s := edge (cur s) route s in
      pushb (cur s) v s
  end.
(** lines 451-476: the search goes from the outermost try that is left inwards *)
Fixpoint nearestFinally (l : tcs) : option nat :=
  match l with
  | [] => None
  | (_, Some f) :: _ => Some f
  | _ :: l => nearestFinally l
  end.
Definition edge_opt (b : nat) (c : option nat) (s : st) : st := match c with Some c => edge b c s | None => s end.
Definition jump (tc : tcs) (cf : option nat) (newTc : nat) (s : st) : st :=
  if length tc <=? newTc then edge_opt (cur s) cf s
  else match nearestFinally (rev (firstn (length tc - newTc) tc)) with
       | Some f => edge_opt f cf (match tc with (route, _) :: _ => edge (cur s) route s | [] => s end)
       | None => edge_opt (cur s) cf s
       end.
(** lines 478-481 and 392, 398.  No such loop: undefined behaviour in the code, nothing here; excluded by
    the hypothesis that jumps are inside their loops. *)
Definition findLoop (lp : list loopb) (l : option nat) : option loopb :=
  match l with
  | None => hd_error lp
  | Some i => find (fun e => Nat.eqb (lid e) i) (rev lp)
  end.

Section Lists.
Context (build : node -> st -> st).
(** lines 295-303: the handlers of a try *)
Fixpoint catches (route dst : nat) (cs : list (option (nat * nat) * node)) (s : st) : st :=
  match cs with
  | [] => s
  | (v, h) :: cs =>
      let cb := sz s in
      let s := newc s in
      let s := fold_left (fun s v => pushb cb v s) (catch_items v) s in
      let s := build h s in
      let s := edge route cb s in
      let s := edge (cur s) dst s in
      catches route dst cs s
  end.
End Lists.

Fixpoint build (e : node) (lp : list loopb) (tc : tcs) (s : st) {struct e} : st :=
  match e with
  | Leaf i k => insert tc (Item i (leaf_kind k)) s
  (* lines 347-363, 410-432 *)
  | Op i args => insert tc (Item i KOther) (fold_left (fun s a => build a lp tc s) args s)
  (* lines 342-345 *)
  | Assign i x rhs => insert tc (assign_item i x rhs) (build rhs lp tc s)
  (* lines 160-164 *)
  | Series l => fold_left (fun s a => build a lp tc s) l s
  (* lines 166-189 *)
  | If c a b =>
      let s := build c lp tc s in
      let original := cur s in
      let fin := sz s in let s := newb s in
      let tb := sz s in let s := newc s in
      let s := build a lp tc s in
      let s := edge (cur s) fin s in
      match b with
      | Some b =>
          let fb := sz s in let s := newc s in
          let s := build b lp tc s in
          let s := edge (cur s) fin s in
          goto fin (edge original fb (edge original tb s))
      | None => goto fin (edge original fin (edge original tb s))
      end
  (* lines 191-208 *)
  | While lid c b =>
      let original := cur s in
      let fin := sz s in let s := newb s in
      let lb := sz s in let s := newc s in
      let s := edge original lb s in
      let s := build c lp tc s in
      let s := edge (cur s) fin s in
      let bd := sz s in let s := newc s in
      let s := edge lb bd s in
      let s := build b (Lp lb fin lid (length tc) :: lp) tc s in
      goto fin (edge (cur s) lb s)
  (* lines 210-241 *)
  | For lid i x _ iter b =>
      let original := cur s in
      let fin := sz s in let s := newb s in
      let lb := sz s in let s := newc s in
      let s := edge original lb s in
      let s := build iter lp tc s in
      let ck := sz s in let s := newb s in
      let s := edge (cur s) ck s in
      let s := edge ck fin s in
      let nx := sz s in let s := newb s in
      let s := edge ck nx s in
      let s := pushb nx (Item i (KDef x None)) s in
      let bd := sz s in let s := newc s in
      let s := edge nx bd s in
      let s := build b (Lp ck fin lid (length tc) :: lp) tc s in
      goto fin (edge (cur s) ck s)
  (* lines 243-277 *)
  | ImpFor lid i j x start stop b =>
      let original := cur s in
      let fin := sz s in let s := newb s in
      let lb := sz s in let s := newc s in
      let s := edge original lb s in
      let s := pushb lb (assign_item i x start) s in
      let s := build start lp tc s in
      let s := build stop lp tc s in
      let ck := sz s in let s := newb s in
      let s := edge (cur s) ck s in
      let s := edge ck fin s in
      let nx := sz s in let s := newb s in
      let s := pushb nx (Item j (KDef x None)) s in
      let s := edge nx ck s in
      let bd := sz s in let s := newc s in
      let s := edge ck bd s in
      let s := build b (Lp ck fin lid (length tc) :: lp) tc s in
      goto fin (edge (cur s) ck s)
  (* lines 279-328 *)
  | Try b cs el fin =>
      let route := sz s in let s := newb s in
      let en := sz s in let s := newb s in
      let eb := sz s in let s := match el with Some _ => newb s | None => s end in
      let fb := sz s in let s := match fin with Some _ => newb s | None => s end in
      let dst := match fin with Some _ => fb | None => en end in
      let tc' := (route, match fin with Some _ => Some fb | None => None end) :: tc in
      let s := build b lp tc' s in
      let s := edge (cur s) (match el with Some _ => eb | None => dst end) s in
      let s := catches (fun h s => build h lp tc' s) route dst cs s in
      let s := match el with
               | Some e => let s := goto eb s in let s := build e lp tc' s in edge (cur s) dst s
               | None => s
               end in
      let s := match fin with
               | Some f => let s := goto fb s in let s := build f lp tc s in let s := edge (cur s) en s in edge route fb s
               | None => s
               end in
      let s := match tc with
               | (outer, _) :: _ => match fin with Some _ => edge fb outer s | None => edge route outer s end
               | [] => s
               end in
      goto en s
  (* lines 365-389: the phi takes the place of the instruction *)
  | Ternary i c a b =>
      let en := sz s in let s := newb s in
      let tb := sz s in let s := newb s in
      let fb := sz s in let s := newb s in
      let s := build c lp tc s in
      let s := edge (cur s) tb s in
      let s := edge (cur s) fb s in
      let s := build a lp tc (goto tb s) in
      let s := edge (cur s) en s in
      let s := build b lp tc (goto fb s) in
      let s := edge (cur s) en s in
      goto en (pushb en (Item i KOther) s)
  (* lines 391-401 *)
  | Break i l => insert tc (Item i KOther) (match findLoop lp l with Some e => jump tc (Some (fini e)) (depth e) s | None => s end)
  | Continue i l => insert tc (Item i KOther) (match findLoop lp l with Some e => jump tc (Some (next e)) (depth e) s | None => s end)
  (* lines 403-408 *)
  | Return i v => insert tc (Item i KOther) (jump tc None 0 (match v with Some v => build v lp tc s | None => s end))
  (* lines 421-425 *)
  | Throw i v => insert tc (Item i KOther) (match v with Some v => build v lp tc s | None => s end)
  end.

(** lines 101, 151-158: the arguments are assigned in the entry block, each from a read of itself *)
Definition start : st := St 1 (fun _ => []) (fun _ => []) 0.
Definition func (args : list (nat * nat * nat)) (body : node) : st :=
  let s := fold_left (fun s '(i, x, a) => pushb 0 (Item i (KDef x (Some a))) s) args start in
  build body [] [] s.
Definition graph_of (s : st) : graph := {| size := sz s; succs := suc s |}.
