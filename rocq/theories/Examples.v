(** The specifications that ship with the project, letter by letter, and the wire formats they are meant to describe. *)
From Verif Require Import ScalarFacts Prelude Spec World Data.
Open Scope string_scope. Open Scope Z_scope. Open Scope list_scope.

(** examples/nbtview/spec/nbt.pspec:1-63. *)
Definition nbt_shipped : string :=
"import_ffi utf8 as type;

type Tag = enum u8 {
    End = 0,
    Byte,
    Short,
    Int,
    Long,
    Float,
    Double,
    ByteArray,
    String,
    List,
    Compound,
    IntArray,
    LongArray,
};

type NBTString = container {
    len: u16 = len(value) :> u16,
    value: utf8(len),
};

type IntArray = container {
    len: i32 = len(value) :> i32,
    value: i32[len],
};

type LongArray = container {
    len: i32 = len(value) :> i32
    value: i64[len],
};

type Payload(t: Tag) = container +tagged_enum {
    Byte: i8 {t == Tag::Byte},
    Short: i16 {t == Tag::Short},
    Int: i32 {t == Tag::Int},
    Long: i64 {t == Tag::Long},
    Float: f32 {t == Tag::Float},
    Double: f64 {t == Tag::Double},
    String: NBTString {t == Tag::String},
    List: List {t == Tag::List},
    Compound: Compound {t == Tag::Compound},
    IntArray: IntArray {t == Tag::IntArray},
    LongArray: LongArray {t == Tag::LongArray},
};

type CompoundItem = container {
    type_id: Tag,
    name_len: u16 = len(name) :> u16,
    name: utf8(name_len),
    payload: Payload(type_id),
};

type Compound = container {
    items: CompoundItem[..""\0""]
};

type List = container {
    type_id: Tag,
    length: i32 = len(items) :> length,
    items: Payload(type_id)[length],
};".

(** The same with three holes: after the length of [LongArray] (nbt.pspec:30), the type of the cast at nbt.pspec:61, and after the array lengths (nbt.pspec:26, 31, 62). *)
Definition nbt_with (comma cast count : string) : string := (
"import_ffi utf8 as type;

type Tag = enum u8 {
    End = 0,
    Byte,
    Short,
    Int,
    Long,
    Float,
    Double,
    ByteArray,
    String,
    List,
    Compound,
    IntArray,
    LongArray,
};

type NBTString = container {
    len: u16 = len(value) :> u16,
    value: utf8(len),
};

type IntArray = container {
    len: i32 = len(value) :> i32,
    value: i32[len" ++ count ++ "],
};

type LongArray = container {
    len: i32 = len(value) :> i32" ++ comma ++ "
    value: i64[len" ++ count ++ "],
};

type Payload(t: Tag) = container +tagged_enum {
    Byte: i8 {t == Tag::Byte},
    Short: i16 {t == Tag::Short},
    Int: i32 {t == Tag::Int},
    Long: i64 {t == Tag::Long},
    Float: f32 {t == Tag::Float},
    Double: f64 {t == Tag::Double},
    String: NBTString {t == Tag::String},
    List: List {t == Tag::List},
    Compound: Compound {t == Tag::Compound},
    IntArray: IntArray {t == Tag::IntArray},
    LongArray: LongArray {t == Tag::LongArray},
};

type CompoundItem = container {
    type_id: Tag,
    name_len: u16 = len(name) :> u16,
    name: utf8(name_len),
    payload: Payload(type_id),
};

type Compound = container {
    items: CompoundItem[..""\0""]
};

type List = container {
    type_id: Tag,
    length: i32 = len(items) :> " ++ cast ++ ",
    items: Payload(type_id)[length" ++ count ++ "],
};")%string.
(** With the missing comma, [i32] for the type [length] that does not exist, and the signed counts cast to [u64] where they are array lengths. *)
Definition nbt_text : string := nbt_with "," "i32" " :> u64".

(** protospec-build/tests/compiler/integration/png.rs:6-17. *)
Definition png_text : string :=
"
        type PngChunk = container {
            length: u32,
            chunk_type: u32,
            data: u8[length],
            crc: u32,
        };
        type Png = container {
            header: u8[8],
            chunks: PngChunk[..]
        };
    ".

(** protospec-build/tests/compiler/integration/user_submission1.rs:6-41. *)
Definition packet_text : string :=
"
        import_ffi utf8 as type;

        type Packet = container {
            id : u8,
            size: u32 = blen(data) :> u32,
            size_crc: u8,
            data: container [size] {
                data: Item[..],
            },
            crc: u8,
        };

        type TypeId = enum u8 {
            String = 0,
            Integer,
            Float,
            Long,
        };

        type Item = container {
            code: u16,
            type_id: TypeId,
            body: ItemBody(type_id),
        };

        type ItemBody(type_id: TypeId) = container +tagged_enum {
            String: container {
                len: u32 = len(string) :> u32,
                string: utf8(len),
            } { type_id == TypeId::String },
            Integer: u32 { type_id == TypeId::Integer },
            Float: u32 { type_id == TypeId::Float },
            Long: u32 { type_id == TypeId::Long },
        };
    ".

(** ** NBT

    The format, from its public description (https://minecraft.wiki/w/NBT_format): numbers are big-endian two's complement; strings are counted in bytes by a u16; a list is the
    tag of its elements, a count and the elements; a compound is named tags up to a tag 0.  (Real NBT strings are "modified UTF-8"; here they are UTF-8, as in nbt.pspec.) *)
Inductive nbt :=
| NByte (z : Z) | NShort (z : Z) | NInt (z : Z) | NLong (z : Z)
| NFloat (bits : Z) | NDouble (bits : Z)
| NByteArray (l : list Z) | NString (s : list Z)
| NList (tag : Z) (l : list nbt) | NCompound (l : list (list Z * nbt))
| NIntArray (l : list Z) | NLongArray (l : list Z).

Definition tag_of (x : nbt) : Z :=
  match x with
  | NByte _ => 1 | NShort _ => 2 | NInt _ => 3 | NLong _ => 4 | NFloat _ => 5 | NDouble _ => 6 | NByteArray _ => 7
  | NString _ => 8 | NList _ _ => 9 | NCompound _ => 10 | NIntArray _ => 11 | NLongArray _ => 12
  end.

(** The last [n] base-256 digits of [z], most significant first. *)
Fixpoint be (n : nat) (z : Z) : list Z :=
  match n with O => [] | S k => (z / 256 ^ Z.of_nat k) mod 256 :: be k z end.
Definition text16 (s : list Z) : list Z := be 2 (Z.of_nat (List.length (utf8_encode s))) ++ utf8_encode s.

Fixpoint wire (x : nbt) : list Z :=
  match x with
  | NByte z => be 1 z | NShort z => be 2 z | NInt z => be 4 z | NLong z => be 8 z
  | NFloat b => be 4 b | NDouble b => be 8 b
  | NByteArray l => be 4 (Z.of_nat (List.length l)) ++ flat_map (be 1) l
  | NString s => text16 s
  | NList t l => t :: be 4 (Z.of_nat (List.length l)) ++ flat_map wire l
  | NCompound l => flat_map (fun nx => tag_of (snd nx) :: text16 (fst nx) ++ wire (snd nx)) l ++ [0]
  | NIntArray l => be 4 (Z.of_nat (List.length l)) ++ flat_map (be 4) l
  | NLongArray l => be 4 (Z.of_nat (List.length l)) ++ flat_map (be 8) l
  end.
Definition named (n : list Z) (x : nbt) : list Z := tag_of x :: text16 n ++ wire x.

(** The trees that have a wire form: numbers in range, strings of Unicode scalar values and at most 65535 bytes, at most 2^31-1 elements, all of the tag announced. *)
Definition text_ok (s : list Z) : Prop := Forall usv s /\ Z.of_nat (List.length (utf8_encode s)) < 2 ^ 16.
Definition signed (k : Z) (z : Z) : Prop := - 2 ^ (k - 1) <= z < 2 ^ (k - 1).
Fixpoint nbt_ok (x : nbt) : Prop :=
  match x with
  | NByte z => signed 8 z | NShort z => signed 16 z | NInt z => signed 32 z | NLong z => signed 64 z
  | NFloat b => 0 <= b < 2 ^ 32 | NDouble b => 0 <= b < 2 ^ 64
  | NByteArray l => Z.of_nat (List.length l) < 2 ^ 31 /\ Forall (signed 8) l
  | NString s => text_ok s
  | NList t l => 0 <= t <= 12 /\ Z.of_nat (List.length l) < 2 ^ 31 /\
      (fix all (l : list nbt) : Prop := match l with [] => True | x :: l => (tag_of x = t /\ nbt_ok x) /\ all l end) l
  | NCompound l => (fix all (l : list (list Z * nbt)) : Prop := match l with [] => True | nx :: l => (text_ok (fst nx) /\ nbt_ok (snd nx)) /\ all l end) l
  | NIntArray l => Z.of_nat (List.length l) < 2 ^ 31 /\ Forall (signed 32) l
  | NLongArray l => Z.of_nat (List.length l) < 2 ^ 31 /\ Forall (signed 64) l
  end.
(** No byte array occurs in the tree. *)
Fixpoint no_bytes (x : nbt) : Prop :=
  match x with
  | NByteArray _ => False
  | NList _ l => (fix all (l : list nbt) : Prop := match l with [] => True | x :: l => no_bytes x /\ all l end) l
  | NCompound l => (fix all (l : list (list Z * nbt)) : Prop := match l with [] => True | nx :: l => no_bytes (snd nx) /\ all l end) l
  | _ => True
  end.

(** The value of the generated Rust types ([Payload], [NBTString], [List], ...) that stands for a tree. *)
Definition tag_names : list string := ["End"; "Byte"; "Short"; "Int"; "Long"; "Float"; "Double"; "ByteArray"; "String"; "List"; "Compound"; "IntArray"; "LongArray"].
Definition tag_def : enumdef := {| en_name := "Tag"; en_rep := u8be; en_items := combine tag_names (map Some [0; 1; 2; 3; 4; 5; 6; 7; 8; 9; 10; 11; 12]) |}.
Definition tag_value (t : Z) : val := VEnum tag_def (VNamed (nth (Z.to_nat t) tag_names "")).
Definition payload (kind : string) (v : val) : val := VVariant "Payload" kind v.
Definition counted (ty : string) (l : list val) : val := VStruct ty [("len", VInt I32 (Z.of_nat (List.length l))); ("value", VArr l)].
Definition size16 (s : list Z) : val := VInt U16 (Z.of_nat (List.length (utf8_encode s))).
Fixpoint nbt_value (x : nbt) : val :=
  match x with
  | NByte z => payload "Byte" (VInt I8 z) | NShort z => payload "Short" (VInt I16 z)
  | NInt z => payload "Int" (VInt I32 z) | NLong z => payload "Long" (VInt I64 z)
  | NFloat b => payload "Float" (VF32 b) | NDouble b => payload "Double" (VF64 b)
  | NByteArray l => payload "ByteArray" (counted "ByteArray" (map (VInt I8) l))
  | NString s => payload "String" (VStruct "NBTString" [("len", size16 s); ("value", VStr s)])
  | NList t l => payload "List" (VStruct "List" [("type_id", tag_value t); ("length", VInt I32 (Z.of_nat (List.length l))); ("items", VArr (map nbt_value l))])
  | NCompound l => payload "Compound" (VStruct "Compound" [("items", VArr (map (fun nx =>
      VStruct "CompoundItem" [("type_id", tag_value (tag_of (snd nx))); ("name_len", size16 (fst nx)); ("name", VStr (fst nx)); ("payload", nbt_value (snd nx))]) l))])
  | NIntArray l => payload "IntArray" (counted "IntArray" (map (VInt I32) l))
  | NLongArray l => payload "LongArray" (counted "LongArray" (map (VInt I64) l))
  end.
Definition named_value (n : list Z) (x : nbt) : val :=
  VStruct "CompoundItem" [("type_id", tag_value (tag_of x)); ("name_len", size16 n); ("name", VStr n); ("payload", nbt_value x)].

(** ** PNG (the chunk structure: an 8-byte signature, then length, type, data and checksum of each chunk) *)
Record chunk := { ch_type : Z; ch_data : list Z; ch_crc : Z }.
Definition chunk_ok (c : chunk) : Prop := 0 <= ch_type c < 2 ^ 32 /\ 0 <= ch_crc c < 2 ^ 32 /\ bytes_ok (ch_data c) /\ Z.of_nat (List.length (ch_data c)) < 2 ^ 32.
Definition chunk_bytes (c : chunk) : list Z := be 4 (Z.of_nat (List.length (ch_data c))) ++ be 4 (ch_type c) ++ ch_data c ++ be 4 (ch_crc c).
Definition bytes_val (l : list Z) : val := VArr (map (VInt U8) l).
Definition chunk_value (c : chunk) : val :=
  VStruct "PngChunk" [("length", VInt U32 (Z.of_nat (List.length (ch_data c)))); ("chunk_type", VInt U32 (ch_type c)); ("data", bytes_val (ch_data c)); ("crc", VInt U32 (ch_crc c))].
Definition png_value (signature : list Z) (cs : list chunk) : val := VStruct "Png" [("header", bytes_val signature); ("chunks", VArr (map chunk_value cs))].

(** ** The packets of the third specification: an id, the size of the body, a byte, the body, a byte; the body is a sequence of items *)
Inductive item := ItString (code : Z) (s : list Z) | ItInteger (code z : Z) | ItFloat (code z : Z) | ItLong (code z : Z).
Definition item_ok (i : item) : Prop :=
  match i with
  | ItString c s => 0 <= c < 2 ^ 16 /\ Forall usv s /\ Z.of_nat (List.length (utf8_encode s)) < 2 ^ 32
  | ItInteger c z | ItFloat c z | ItLong c z => 0 <= c < 2 ^ 16 /\ 0 <= z < 2 ^ 32
  end.
Definition item_bytes (i : item) : list Z :=
  match i with
  | ItString c s => be 2 c ++ [0] ++ be 4 (Z.of_nat (List.length (utf8_encode s))) ++ utf8_encode s
  | ItInteger c z => be 2 c ++ [1] ++ be 4 z | ItFloat c z => be 2 c ++ [2] ++ be 4 z | ItLong c z => be 2 c ++ [3] ++ be 4 z
  end.
Definition kind_names : list string := ["String"; "Integer"; "Float"; "Long"].
Definition kind_def : enumdef := {| en_name := "TypeId"; en_rep := u8be; en_items := combine kind_names (map Some [0; 1; 2; 3]) |}.
Definition item_value (i : item) : val :=
  let it c k body := VStruct "Item" [("code", VInt U16 c); ("type_id", VEnum kind_def (VNamed k)); ("body", body)] in
  match i with
  | ItString c s => it c "String" (VVariantS "ItemBody" "String" [("len", VInt U32 (Z.of_nat (List.length (utf8_encode s)))); ("string", VStr s)])
  | ItInteger c z => it c "Integer" (VVariant "ItemBody" "Integer" (VInt U32 z))
  | ItFloat c z => it c "Float" (VVariant "ItemBody" "Float" (VInt U32 z))
  | ItLong c z => it c "Long" (VVariant "ItemBody" "Long" (VInt U32 z))
  end.
Definition body_bytes (l : list item) : list Z := flat_map item_bytes l.
Definition packet_bytes (id check1 : Z) (l : list item) (check2 : Z) : list Z :=
  id :: be 4 (Z.of_nat (List.length (body_bytes l))) ++ check1 :: body_bytes l ++ [check2].
Definition packet_value (id check1 : Z) (l : list item) (check2 : Z) : val :=
  VStruct "Packet" [("id", VInt U8 id); ("size", VInt U32 (Z.of_nat (List.length (body_bytes l)))); ("size_crc", VInt U8 check1); ("data", VArr (map item_value l)); ("crc", VInt U8 check2)].
