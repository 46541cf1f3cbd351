(** Static scoping of the generated code: specification for C30.  Rust's rules for local variables, on the instructions of the generated functions. *)
From Verif Require Import Base Scalar EnumBits Expr Asg Gen Decode Encode Spec EncWf.
Open Scope string_scope. Open Scope Z_scope. Open Scope list_scope.

(** The variables in scope: values and streams (buffers, readers, writers). *)
Record scope := { sr : list nat; ss : list nat }.
Definition has (r : nat) (l : list nat) : bool := existsb (Nat.eqb r) l.
Definition val_in (s : scope) (r : nat) : bool := has r (sr s).
Definition vals_in (s : scope) (l : list nat) : bool := forallb (val_in s) l.
Definition opt_in (s : scope) (o : option nat) : bool := match o with Some r => val_in s r | None => true end.
(** The function's own reader or writer is always in scope. *)
Definition str_in (s : scope) (t : target) : bool := match t with TDirect => true | TStream r | TBuf r => has r (ss s) end.
Definition new (s : scope) (r : nat) : bool := negb (has r (sr s)) && negb (has r (ss s)).
Definition add_val (s : scope) (r : nat) : scope := {| sr := r :: sr s; ss := ss s |}.
Definition add_str (s : scope) (r : nat) : scope := {| sr := sr s; ss := r :: ss s |}.
(** New variables, one after the other. *)
Fixpoint add_vals (l : list nat) (s : scope) : option scope :=
  match l with [] => Some s | r :: l => if new s r then add_vals l (add_val s r) else None end.
Definition guard (b : bool) (s : scope) : option scope := if b then Some s else None.
(** Every field [e] mentions stands for a value in scope, by the map [m]. *)
Definition fields_in (s : scope) (m : list (string * nat)) (e : expr) : bool :=
  forallb (fun n => match lookup n m with Some r => val_in s r | None => false end) (fv e).

(** ** Decoder: the scope after an instruction, or [None] if it uses a variable that is not in scope, or defines one again.  What a nested block defines
    ends with the block, except the targets of a conditional. *)
Definition con_regs (c : construct) : list nat :=
  match c with CStruct _ l | CVariantS _ _ l => map snd l | CTagged _ r | CVariant _ _ r => [r] end.
Fixpoint dscope (i : dinstr) (s : scope) {struct i} : option scope :=
  let seq := fix seq (l : list dinstr) (s : scope) {struct l} : option scope :=
    match l with [] => Some s | i :: l => match dscope i s with Some s => seq l s | None => None end end in
  match i with
  | DEval r e m => guard (fields_in s m e && new s r) (add_val s r)
  | DConstruct r c => guard (vals_in s (con_regs c) && new s r) (add_val s r)
  | DConstrict t r len => guard (str_in s t && val_in s len && new s r) (add_str s r)
  | DWrap t r _ args => guard (str_in s t && vals_in s args && new s r) (add_str s r)
  | DCondWrap c prelude t r _ args =>
      if val_in s c && str_in s t then match seq prelude s with Some s' => guard (vals_in s' args && new s r) (add_str s r) | None => None end else None
  | DForeign t r _ args | DRef t r _ args => guard (str_in s t && vals_in s args && new s r) (add_val s r)
  | DRepr _ r t | DPrim t r _ => guard (str_in s t && new s r) (add_val s r)
  | DPrimArr t r _ len | DReprArr t r _ len => guard (str_in s t && opt_in s len && new s r) (add_val s r)
  | DLoop t stop term out body =>
      if str_in s t && opt_in s stop && opt_in s term && new s out then
        match seq body (add_val s out) with Some _ => Some (add_val s out) | None => None end
      else None
  | DLoopOut out item => guard (val_in s out && val_in s item) s
  | DCond targets c body =>
      if val_in s c then match seq body s with Some s' => if vals_in s' targets then add_vals targets s else None | None => None end else None
  | DPred c body => if val_in s c then match seq body s with Some _ => Some s | None => None end else None
  | DReturn r => guard (val_in s r) s
  | DError => Some s
  | DSkip t len => guard (str_in s t && val_in s len) s
  end.
Fixpoint dscopes (l : list dinstr) (s : scope) : option scope :=
  match l with [] => Some s | i :: l => match dscope i s with Some s => dscopes l s | None => None end end.
(** The body of a [decode_sync]. *)
Definition dec_scoped (code : list dinstr) : Prop := exists s, dscopes code {| sr := []; ss := [] |} = Some s.

(** The names in a declaration: an expression mentions only fields decoded before it, in its own or an enclosing container, and no other variant. *)
Fixpoint dnames (vis : list string) (t : ty) : bool :=
  match t with
  | TCont len tg items =>
      negb tg && subset (fvo len) vis &&
      (fix go (vis : list string) (l : list (fattr * ty)) : bool :=
         match l with
         | [] => true
         | (a, t') :: l => subset (fvo (fa_cond a) ++ xs_fv (fa_xs a)) vis && dnames vis t' && go (if is_cont t' || fa_pad a then vis else fa_name a :: vis) l
         end) vis items
  | t => subset (ty_fv t) vis
  end.
Definition dec_names_ok (d : decl) : bool :=
  subset (fvo (fa_cond (d_attr d)) ++ xs_fv (fa_xs (d_attr d))) [] &&
  match d_ty d with
  | TCont len true items => subset (fvo len) [] && forallb (fun f => subset (fvo (fa_cond (fst f)) ++ xs_fv (fa_xs (fst f))) [] && dnames [] (snd f)) items
  | t => dnames [] t
  end.

(** ** Encoder.  A reference to a field is resolved when the code is emitted (compiler/encoder.rs:444-452): the map of references goes along with the
    instructions, through blocks too, while the variables of a block end with it.  A stream that was ended or dropped is no longer in scope; a block may not
    end a stream from outside; [break] occurs only inside the block it leaves.  Only an unwrapped value may take the variable it was unwrapped from. *)
Definition renew (s : scope) (src r : nat) : bool := new s r || Nat.eqb r src.
Definition end_str (s : scope) (r : nat) : scope := {| sr := sr s; ss := filter (fun x => negb (Nat.eqb r x)) (ss s) |}.
Definition ops_in (s : scope) (ops : list fref) : bool := forallb (fun o => match o with FIdx r => val_in s r | _ => true end) ops.
Definition leave (s : scope) (o : option (scope * rmap)) : option (scope * rmap) :=
  match o with Some (s', m') => if forallb (fun x => has x (ss s')) (ss s) then Some (s, m') else None | None => None end.
Definition keepm (m : rmap) (o : option scope) : option (scope * rmap) := match o with Some s => Some (s, m) | None => None end.
Fixpoint escope (brk : bool) (i : einstr) (st : scope * rmap) {struct i} : option (scope * rmap) :=
  let seq := fix seq (brk : bool) (l : list einstr) (st : scope * rmap) {struct l} : option (scope * rmap) :=
    match l with [] => Some st | i :: l => match escope brk i st with Some st => seq brk l st | None => None end end in
  let (s, m) := st in
  match i with
  | NEval r e => keepm m (guard (fields_in s m e && new s r) (add_val s r))
  | NGetField r src ops => keepm m (guard (val_in s src && ops_in s ops && renew s src r) (add_val s r))
  | NGetRef r n => keepm m (guard (match lookup n m with Some q => val_in s q | None => false end && new s r) (add_val s r))
  | NSetRef n r => if val_in s r then Some (s, (n, r) :: m) else None
  | NAllocBuf b len => keepm m (guard (val_in s len && new s b) (add_str s b))
  | NAllocDyn b => keepm m (guard (new s b) (add_str s b))
  | NWrap t r _ args => keepm m (guard (str_in s t && vals_in s args && new s r) (add_str s r))
  | NCondWrap c prelude t r o _ args =>
      if val_in s c && str_in s t then
        match seq brk prelude st with
        | Some (s', m') => if vals_in s' args && new s o && new (add_str s o) r then leave (add_str (add_str s o) r) (Some (add_str (add_str s' o) r, m')) else None
        | None => None
        end
      else None
  | NEndStream r | NDrop r => keepm m (guard (has r (ss s)) (end_str s r))
  | NEmitBuf t b => keepm m (guard (str_in s t && has b (ss s)) s)
  | NForeign t src _ args | NRef t src _ args => keepm m (guard (str_in s t && val_in s src && vals_in s args) s)
  | NRepr t src _ | NPrim t src _ => keepm m (guard (str_in s t && val_in s src) s)
  | NPrimArr t src _ len | NReprArr t src _ len => keepm m (guard (str_in s t && val_in s src && opt_in s len) s)
  | NPad t len => keepm m (guard (str_in s t && val_in s len) s)
  | NLoop idx stop body => if val_in s stop && new s idx then leave s (seq brk body (add_val s idx, m)) else None
  | NGetLen r src => keepm m (guard ((val_in s src || has src (ss s)) && new s r) (add_val s r))
  | NNullCheck src r => keepm m (guard (val_in s src && renew s src r) (add_val s r))
  | NCond c body => if val_in s c then leave s (seq brk body st) else None
  | NUnwrapEnum _ _ src r => keepm m (guard (val_in s src && new s r) (add_val s r))
  | NUnwrapEnumS _ _ src rs => if val_in s src then keepm m (add_vals (map snd rs) s) else None
  | NBreakBlock body => leave s (seq true body st)
  | NBreak => if brk then Some st else None
  end.
Fixpoint escopes (brk : bool) (l : list einstr) (st : scope * rmap) : option (scope * rmap) :=
  match l with [] => Some st | i :: l => match escope brk i st with Some st => escopes brk l st | None => None end end.
(** The body of an [encode_sync]: the value to encode is the variable 0. *)
Definition enc_scoped (code : list einstr) : Prop := exists st, escopes false code ({| sr := [0%nat]; ss := [] |}, []) = Some st.

(** The names in a declaration, for encoding.  A field computed from the length of a later container gets its value once that container is encoded; until then
    nothing may mention it, except that container's own length.  [known]: the fields that can be read; [wt]: the field that waits, and for which container. *)
Definition waits (a : fattr) : bool := match fa_calc a with Some e => match blen_calls e with Some [] => false | _ => true end | None => false end.
Definition ready (f : fattr * ty) : bool := leaf f && negb (waits (fst f)).
Definition ready_names (l : list (fattr * ty)) : list string := map (fun f => fa_name (fst f)) (filter ready l).
Definition late_names (known : list string) (c : string) (f : fattr * ty) : bool :=
  match fa_calc (fst f) with
  | Some e => match rewrite_blen [c] e with Some e' => subset (fv e') (blen_name c :: known) | None => false end
  | None => false
  end && subset (fvo (fa_cond (fst f)) ++ xs_fv (fa_xs (fst f)) ++ ty_fv (snd f)) (fa_name (fst f) :: known).
Definition awaited (wt : option (string * (fattr * ty))) (a : fattr) : bool := match wt with Some (c, _) => String.eqb c (fa_name a) | None => false end.
Fixpoint enames (known : list string) (t : ty) : bool :=
  match t with
  | TCont _ _ items =>
      (fix go (known : list string) (wt : option (string * (fattr * ty))) (l : list (fattr * ty)) : bool :=
         match l with
         | [] => true
         | (a, t') :: l =>
             if waits a then match fa_calc a with Some e => match blen_calls e with Some [c] => go known (Some (c, (a, t'))) l | _ => false end | None => false end
             else
               subset (fvo (fa_cond a) ++ xs_fv (fa_xs a)) known && (awaited wt a || subset (fvo (cont_len t')) known) && enames known t' &&
               (if awaited wt a then match wt with Some (c, f) => late_names known c f && go (fa_name (fst f) :: known) None l | None => false end
                else go known wt l)
         end) (known ++ ready_names items) None items
  | t => subset (ty_fv t) known
  end.
(** The fields computed without such a length are evaluated first, in order. *)
Fixpoint calc_names (known : list string) (l : list (fattr * ty)) : bool :=
  match l with
  | [] => true
  | (a, t) :: l =>
      match fa_calc a with
      | Some e => if waits a then calc_names known l else subset (fv e) known && calc_names (fa_name a :: known) l
      | None => calc_names known l
      end
  end.
Definition given_names (l : list (fattr * ty)) : list string := map (fun f => fa_name (fst f)) (filter (fun f => negb (is_some (fa_calc (fst f)) || fa_pad (fst f))) l).
Definition enc_names_ok (d : decl) : bool :=
  enc_wf d &&
  match d_ty d with
  | TCont len true items => forallb (fun f => enames [] (snd f)) items
  | TCont len false items => enames [] (d_ty d) && calc_names (given_names (flatten_items items)) (flatten_items items)
  | _ => true
  end.
