(** Sample programs used to show that the coder theorems are not vacuous, and the
    counterexamples of the _refuted theorems. *)
From Verif Require Import DecRef EncRef RtWf RoundTrip Relax World.
Open Scope string_scope. Open Scope Z_scope. Open Scope list_scope.

Definition es (s : scalar) (e : endian) : escalar := {| es_scalar := s; es_endian := e |}.
Definition be (s : scalar) : ty := TScalar (es s Big).
Definition le (s : scalar) : ty := TScalar (es s Little).
Definition fld (n : string) : fattr := {| fa_name := n; fa_calc := None; fa_cond := None; fa_xs := []; fa_pad := false |}.
Definition calc (n : string) (e : expr) : fattr := {| fa_name := n; fa_calc := Some e; fa_cond := None; fa_xs := []; fa_pad := false |}.
Definition cond (n : string) (e : expr) : fattr := {| fa_name := n; fa_calc := None; fa_cond := Some e; fa_xs := []; fa_pad := false |}.
Definition withx (n : string) (xs : list xuse) : fattr := {| fa_name := n; fa_calc := None; fa_cond := None; fa_xs := xs; fa_pad := false |}.
Definition pad (n : string) : fattr := {| fa_name := n; fa_calc := None; fa_cond := None; fa_xs := []; fa_pad := true |}.
Definition decl0 (n : string) (t : ty) : string * decl := (n, {| d_attr := fld n; d_ty := t; d_params := [] |}).
Definition declp (n : string) (ps : list param) (t : ty) : string * decl := (n, {| d_attr := fld n; d_ty := t; d_params := ps |}).
Definition ty_u8 := TyScalar (es U8 Big).
Definition ty_u16 := TyScalar (es U16 Big).
Definition lit (z : Z) : expr := EInt (CI U64 z).
Definition lit8 (z : Z) : expr := EInt (CI U8 z).
Definition u8s (l : list Z) : val := VArr (map (VInt U8) l).

Definition kind_def : enumdef := {| en_name := "Kind"; en_rep := es U8 Big; en_items := [("Ping", Some 1); ("Data", Some 7); ("Other", None)] |}.
Definition flags_def : bitsdef := {| bf_name := "Flags"; bf_rep := es U16 Little; bf_items := [("urgent", 1); ("last", 256)] |}.

(** type Kind = enum u8 ...; type Flags = bitfield u16le ...; type Name = utf8;
    type Item(n: u8) = container { id: v32; raw: u8[n] };
    type Packet = container {
      kind: Kind; flags: Flags;
      count: u16le = len(data) :> u16; data: u16[count :> u64];
      seq: u32 {kind == Kind::Data};
      .pad: 3;
      blen_: u32 = blen(body) :> u32;
      body: container [blen_ :> u64] { name: Name; item: Item(2); rest: i16le[..] };
      tail: u8[.."\0"] }
    type Sealed = container { key: u8; box: u32[..] -> xor(key) } *)
Definition sample_list : list (string * decl) :=
  [ decl0 "Kind" (TEnum kind_def);
    decl0 "Flags" (TBits flags_def);
    ("utf8", {| d_attr := fld "utf8"; d_ty := TForeign "utf8"; d_params := [] |});
    ("v32", {| d_attr := fld "v32"; d_ty := TForeign "v32"; d_params := [] |});
    declp "Item" [{| pm_name := "n"; pm_default := None |}]
      (TCont None false [(fld "id", TRef "v32" []); (fld "raw", TArr (be U8) (LFixed (EInput "n" ty_u8)))]);
    decl0 "Packet" (TCont None false
      [ (fld "kind", TRef "Kind" []);
        (fld "flags", TRef "Flags" []);
        (calc "count" (ECast (ECall "len" [EField "data" (TyArr ty_u16)]) ty_u16), le U16);
        (fld "data", TArr (be U16) (LFixed (ECast (EField "count" ty_u16) ty_u64)));
        (cond "seq" (EBin OEq (EField "kind" (TyEnum kind_def)) (EEnum kind_def "Data" 7)), be U32);
        (pad "_pad0", TArr (be U8) (LFixed (lit 3)));
        (calc "bodylen" (ECast (ECall "blen" [EField "body" ty_u8]) (TyScalar (es U32 Big))), be U32);
        (fld "body", TCont (Some (ECast (EField "bodylen" (TyScalar (es U32 Big))) ty_u64)) false
          [ (fld "name", TRef "utf8" []);
            (fld "item", TRef "Item" [lit8 2]);
            (fld "rest", TArr (le I16) LRest) ]);
        (fld "tail", TArr (be U8) (LTerm (EStr [0]))) ]);
    decl0 "Sealed" (TCont None false
      [ (fld "key", be U8);
        (withx "box" [{| x_name := "xor"; x_cond := None; x_args := [EField "key" ty_u8] |}], TArr (be U32) LRest) ]);
    declp "Msg" [{| pm_name := "tag"; pm_default := None |}]
      (TCont None true
        [ (cond "Small" (EBin OEq (EInput "tag" ty_u8) (lit8 1)), be U16);
          (cond "Pair" (EBin OEq (EInput "tag" ty_u8) (lit8 2)), TCont None false [(fld "x", be U8); (fld "y", TRef "Kind" [])]);
          (fld "Rest", TArr (be U8) LRest) ]) ].
Definition sample_marks : marks := prelude_marks ["Sealed"; "Msg"].
Definition sample : program := prog sample_list.
Lemma sample_ok : prog_ok sample_list 20 sample_marks = true.
Proof. vm_compute. reflexivity. Qed.

Definition packet : val := VStruct "Packet"
  [ ("kind", VEnum kind_def (VNamed "Data")); ("flags", VBits flags_def 257); ("count", VInt U16 2);
    ("data", VArr [VInt U16 1; VInt U16 65535]); ("seq", VOpt (Some (VInt U32 70000)));
    ("bodylen", VInt U32 12); ("name", VStr [233; 65]);
    ("item", VStruct "Item" [("id", VInt I32 300); ("raw", u8s [9; 10])]); ("rest", VArr [VInt I16 (-1); VInt I16 2]);
    ("tail", u8s [5; 6]) ].
