(** * Examples: a concrete Python world, and the behaviours described by the
      unit tests and the documentation replayed in the model.

    These are tests (closed computations), not proofs of properties.  They tie
    the model to the documented behaviour and provide the concrete cases used
    to show that the hypotheses of the theorems can be met. *)

From Verif Require Import Loader Dumper Render.

(** ** A concrete world *)

Definition is_digit (c : ascii) : bool :=
  let n := nat_of_ascii c in Nat.leb 48 n && Nat.leb n 57.
Fixpoint parse_digits (s : string) (acc : Z) : option Z :=
  match s with
  | EmptyString => Some acc
  | String c s' => if is_digit c
                   then parse_digits s' (acc * 10 + Z.of_nat (nat_of_ascii c - 48))%Z
                   else None
  end.
Definition parse_int (s : string) : option Z :=
  match s with
  | EmptyString => None
  | String "-"%char s' => match s' with
                     | EmptyString => None
                     | _ => option_map Z.opp (parse_digits s' 0)
                     end
  | _ => parse_digits s 0
  end.

(** calling a type with one argument *)
Definition call0 (t : ty) (v : value) : pyres value :=
  match t with
  | TClass CInt =>
      match v with
      | VInt z => POk (VInt z)
      | VBool b => POk (VInt (if b then 1 else 0))
      | VStr s => match parse_int s with Some z => POk (VInt z) | None => PExc RValue end
      | VFloat (FFin m e) => POk (VInt (if Z.leb 0 e then m * 2 ^ e else Z.quot m (2 ^ (- e))))
      | VFloat (FInf _) => PExc ROverflow
      | VFloat FNan => PExc RValue
      | _ => PExc RType
      end
  | TClass CFloat =>
      match v with
      | VInt z => POk (VFloat (FFin z 0))
      | VBool b => POk (VFloat (FFin (if b then 1 else 0) 0))
      | VFloat f => POk (VFloat f)
      | VStr s => match parse_int s with Some z => POk (VFloat (FFin z 0)) | None => PExc RValue end
      | _ => PExc RType
      end
  | TClass CStr =>
      match v with
      | VStr s => POk v
      | VInt z => POk (VStr (zdec z))
      | VBool b => POk (VStr (if b then "True" else "False"))
      | VNone => POk (VStr "None")
      | _ => POk (VStr "<object>")
      end
  | TClass CBool =>
      POk (VBool (match v with
                  | VNone => false
                  | VBool b => b
                  | VInt z => negb (Z.eqb z 0)
                  | VStr s => negb (String.eqb s "")
                  | VList [] | VTuple [] | VSet [] | VFrozen [] | VDict [] => false
                  | _ => true
                  end))
  | TClass (CUser "Path") =>
      match v with VStr s => POk (VInst (CUser "Path") (VStr s)) | _ => PExc RType end
  | TGen _ OTuple _ => match iter v with Some l => POk (VTuple l) | None => PExc RType end
  | TGen _ OList _ => match iter v with Some l => POk (VList l) | None => PExc RType end
  | TNewType _ _ => POk v
  | _ => PExc RType
  end.

Definition f0 (n : string) (t : ty) (d : dflt) : field := mkField n t d true true [] None.
Definition fm (n ext : string) (t : ty) (d : dflt) : field :=
  mkField n t d true true [("name", ext)] None.

Definition TInt := TClass CInt.
Definition TStr := TClass CStr.
Definition TBool := TClass CBool.
Definition TFloat := TClass CFloat.
Definition TNone := TClass CNone.
Definition LIST t := TGen false OList (Some [t]).
Definition SET t := TGen false OSet (Some [t]).
Definition FSET t := TGen false OFrozen (Some [t]).
Definition TUPLE ts := TGen false OTuple (Some ts).
Definition TUPLEV t := TGen false OTuple (Some [t; TEllipsis]).
Definition DICT k v := TGen false ODict (Some [k; v]).
Definition UNION ts := TGen false OUnion (Some ts).
Definition OPT t := UNION [t; TNone].
Definition CLS n := TClass (CUser n).

Definition anns (fs : list field) : list (string * ty) := map (fun f => (f_name f, f_type f)) fs.
Definition dcls (fs : list field) : classinfo :=
  mkClass [] (anns fs) (POk (anns fs)) (POk (anns fs)) None None (Some fs) None None false (fun v => POk v).
(** a frozen dataclass is hashable *)
Definition fdcls (fs : list field) : classinfo :=
  mkClass [] (anns fs) (POk (anns fs)) (POk (anns fs)) None None (Some fs) None None true (fun v => POk v).
(** a dataclass with a forward reference: get_type_hints works on the class,
    raises NameError on the instance *)
Definition rdcls (fs : list field) (hints : list (string * ty)) : classinfo :=
  mkClass [] (anns fs) (POk hints) (PExc RName) None None (Some fs) None None false (fun v => POk v).
Definition acls (fs : list field) : classinfo :=
  mkClass [] [] (POk []) (POk []) None None None (Some fs) None false (fun v => POk v).
Definition ntcls (fs : list (string * ty * option value)) : classinfo :=
  let a := map fst fs in
  mkClass [] a (POk a) (POk a) None (Some (map (fun x => (fst (fst x), snd x)) fs)) None None None true (fun v => POk v).
Definition tdcls (required : list string) (fs : list (string * ty)) : classinfo :=
  mkClass [] fs (POk fs) (POk fs) None None None None (Some required) false (fun v => POk v).
Definition ecls (ms : list (string * value)) (hints : list (string * ty)) : classinfo :=
  mkClass [] hints (POk hints) (POk hints) (Some ms) None None None None true (fun v => POk v).

Definition table0 : list (string * classinfo) :=
  [ ("Point", dcls [f0 "x" TInt DNo; f0 "y" TInt (DValue (VInt 0))]);
    ("Swap", dcls [fm "a" "b" TInt DNo; fm "b" "a" TInt DNo]);
    ("Ren", dcls [fm "field" "external" TInt DNo; f0 "other" TStr (DValue (VStr ""))]);
    ("Node", rdcls [f0 "v" TInt DNo; f0 "next" (OPT (TForward "Node")) (DValue VNone)]
                    [("v", TInt); ("next", OPT (CLS "Node"))]);
    ("ANode", acls [f0 "v" TInt DNo; f0 "next" (OPT (TForward "ANode")) (DValue VNone)]);
    ("Atr", acls [fm "a" "A" TInt DNo; f0 "l" (LIST TInt) (DFactory (VList []))]);
    ("Priv", acls [f0 "_p" TInt DNo]);
    ("NT", ntcls [("a", TInt, None); ("b", TStr, Some (VStr "z"))]);
    ("TD", tdcls ["k"] [("k", TInt); ("o", TGen false ONotRequired (Some [TStr]))]);
    ("Color", ecls [("RED", VInt 1); ("GREEN", VStr "g"); ("PAIR", VTuple [VInt 1; VInt 2])] []);
    ("AEnum", ecls [("P", VTuple [VInt 1; VInt 2])] [("_", TUPLE [TInt; TInt])]);
    ("TagA", dcls [f0 "type" (TLiteral [VStr "a"]) DNo; f0 "n" TInt (DValue (VInt 0))]);
    ("TagB", dcls [f0 "type" (TLiteral [VStr "b"]) DNo; f0 "n" TInt (DValue (VInt 0))]);
    ("SameA", dcls [f0 "type" (TLiteral [VStr "a"]) DNo; f0 "n" TInt (DValue (VInt 0))]);
    ("SameB", dcls [f0 "type" (TLiteral [VStr "a"]) DNo; f0 "n" TStr (DValue (VStr ""))]);
    ("NA", tdcls [] [("kind", TGen false ONotRequired (Some [TLiteral [VStr "a"; VStr "b"]])); ("x", TGen false ONotRequired (Some [TInt]))]);
    ("NB", tdcls [] [("kind", TGen false ONotRequired (Some [TLiteral [VStr "b"]])); ("x", TGen false ONotRequired (Some [TStr]))]);
    ("Conv", acls [mkField "a" TInt DNo true true [] (Some [("return", TInt)])]);
    ("Slf", acls [f0 "a" TInt DNo; f0 "b" TInt (DFactorySelf (fun d => match str_get "a" d with Some x => x | None => VNone end))]);
    ("FP", fdcls [f0 "x" TInt DNo]);
    ("Recs", dcls [f0 "l" (LIST TInt) (DFactory (VList [])); f0 "p" (CLS "Point") (DFactory (VObj (CUser "Point") [("x", VInt 1); ("y", VInt 0)]))]);
    ("Hue", ecls [("WARM", VInt 1); ("COLD", VStr "c")] []) ].
Definition classes0 (n : string) : classinfo :=
  match str_get n table0 with Some c => c | None => no_class end.

Definition name0 (t : ty) : option string :=
  match t with
  | TClass (CUser n) => Some n
  | TClass CInt => Some "int" | TClass CStr => Some "str" | TClass CBool => Some "bool"
  | TClass CFloat => Some "float" | TClass CNone => Some "NoneType"
  | TGen _ OList _ => Some "List" | TGen _ ODict _ => Some "Dict"
  | TNewType n _ => Some n
  | _ => None
  end.

Definition W0 : world :=
  mkWorld classes0 call0
          (fun c s => if String.eqb s "2020-01-02"
                      then POk (VInst c (VTuple [VInt 2020; VInt 1; VInt 2])) else PExc RValue)
          (fun c l => match c with
                      | CDate => if Nat.eqb (List.length l) 3 then POk (VInst CDate (VTuple l)) else PExc RType
                      | _ => POk (VInst c (VTuple (l ++ [VNone])))
                      end)
          (fun v => match v with
                    | VInt z => POk (VInst CTimedelta (VInt z))
                    | VFloat (FInf _) => PExc ROverflow
                    | VFloat f => POk (VInst CTimedelta (VFloat f))
                    | _ => PExc RType
                    end)
          (fun v => match v with
                    | VStr "(" => PExc RReError
                    | VStr _ | VBytes _ => POk (VInst CPattern v)
                    | _ => PExc RType
                    end)
          name0
          (fun _ => 0)
          (@rev string)
          (fun v => match v with VInst _ (VStr s) => s | _ => "" end)
          (fun v => "2020-01-02")
          (fun v => match v with VInst _ x => x | _ => VNone end).

Definition C0 : config := default_config W0.
Definition strict (c : config) : config :=
  mkConfig (basictypes c) false true (raiseconditionerrors c) (dictequivalence c)
           (mangle_key c) (uniondebugconflict c) (pep563 c) (handlers c).
Definition S0 : lstate := fresh (Some []) [].

(** load on a new Loader() *)
Definition ld (v : value) (t : ty) : res value := fst (load W0 C0 50 v t S0).
Definition lds (v : value) (t : ty) : res value := fst (load W0 (strict C0) 50 v t S0).
Definition D0 : dconfig := default_dconfig W0.
Definition dp (v : value) : res value := fst (dump W0 D0 50 v dfresh).

Definition dict (l : list (string * value)) : value := VDict (map (fun kv => (VStr (fst kv), snd kv)) l).
Definition ok (r : res value) (v : value) : Prop := r = Ok v.
Definition kind_of (r : res value) : option tlkind :=
  match r with Exc (XTL k _ _ _ _ _) => Some k | _ => None end.
Definition raw_of (r : res value) : option rawkind :=
  match r with Exc (XRaw k) => Some k | _ => None end.

(** ** Tests of the loader *)

(* tests/test_dataloader.py TestBasicTypes *)
Example t_basic1 : ld (VInt 1) TInt = Ok (VInt 1). Proof. reflexivity. Qed.
Example t_basic2 : ld (VStr "1") TInt = Ok (VInt 1). Proof. reflexivity. Qed.
Example t_basic3 : ld (VInt 1) TStr = Ok (VStr "1"). Proof. vm_compute. reflexivity. Qed.
Example t_basic4 : kind_of (lds (VStr "1") TInt) = Some KValue. Proof. reflexivity. Qed.
Example t_basic5 : kind_of (ld (VInt 1) TNone) = Some KValue. Proof. reflexivity. Qed.
(* TestTupleLoad, TestListLoad, TestSetLoad *)
Example t_tuple1 : ld (VList [VInt 1; VStr "2"]) (TUPLE [TInt; TInt]) = Ok (VTuple [VInt 1; VInt 2]).
Proof. reflexivity. Qed.
Example t_tuple2 : kind_of (ld (VList [VInt 1]) (TUPLE [TInt; TInt])) = Some KValue. Proof. reflexivity. Qed.
Example t_tuple3 : ld (VList [VInt 1; VInt 2; VInt 3]) (TUPLE [TInt; TInt]) = Ok (VTuple [VInt 1; VInt 2]).
Proof. reflexivity. Qed.
Example t_tuple4 : kind_of (lds (VList [VInt 1; VInt 2; VInt 3]) (TUPLE [TInt; TInt])) = Some KValue.
Proof. reflexivity. Qed.
Example t_tuplev : ld (VList [VInt 1; VInt 2; VInt 3]) (TUPLEV TInt) = Ok (VTuple [VInt 1; VInt 2; VInt 3]).
Proof. reflexivity. Qed.
Example t_set : ld (VList [VInt 1; VStr "1"; VInt 2]) (SET TInt) = Ok (VSet [VInt 1; VInt 2]).
Proof. reflexivity. Qed.
Example t_list_bool : ld (VList [VBool true]) (LIST TInt) = Ok (VList [VBool true]). Proof. reflexivity. Qed.
Example t_list_dict : kind_of (ld (dict []) (LIST TInt)) = Some KType. Proof. reflexivity. Qed.
(* unions *)
Example t_union1 : ld (VInt 1) (UNION [TStr; TInt]) = Ok (VInt 1). Proof. reflexivity. Qed.
Example t_union2 : kind_of (ld (VInt 1) (UNION [LIST TInt; CLS "Point"])) = Some KValue. Proof. reflexivity. Qed.
Example t_tagged : ld (dict [("type", VStr "b"); ("n", VInt 3)]) (UNION [CLS "TagA"; CLS "TagB"])
                   = Ok (VObj (CUser "TagB") [("type", VStr "b"); ("n", VInt 3)]).
Proof. reflexivity. Qed.
(* objects *)
Example t_dc1 : ld (dict [("x", VInt 1)]) (CLS "Point") = Ok (VObj (CUser "Point") [("x", VInt 1); ("y", VInt 0)]).
Proof. reflexivity. Qed.
Example t_dc2 : kind_of (ld (dict [("y", VInt 1)]) (CLS "Point")) = Some KValue. Proof. reflexivity. Qed.
Example t_dc3 : kind_of (lds (dict [("x", VInt 1); ("z", VInt 1)]) (CLS "Point")) = Some KValue. Proof. reflexivity. Qed.
Example t_dc4 : kind_of (ld (VInt 1) (CLS "Point")) = Some KAttr. Proof. reflexivity. Qed.
Example t_swap : ld (dict [("a", VInt 1); ("b", VInt 2)]) (CLS "Swap")
                 = Ok (VObj (CUser "Swap") [("a", VInt 2); ("b", VInt 1)]).
Proof. reflexivity. Qed.
Example t_node : ld (dict [("v", VInt 1); ("next", dict [("v", VInt 2)])]) (CLS "Node")
                 = Ok (VObj (CUser "Node") [("v", VInt 1); ("next", VObj (CUser "Node") [("v", VInt 2); ("next", VNone)])]).
Proof. reflexivity. Qed.
Example t_nt : ld (dict [("a", VInt 1)]) (CLS "NT") = Ok (VNT (CUser "NT") [("a", VInt 1); ("b", VStr "z")]).
Proof. reflexivity. Qed.
Example t_td : ld (dict [("k", VInt 1)]) (CLS "TD") = Ok (dict [("k", VInt 1)]). Proof. reflexivity. Qed.
Example t_attrs : ld (dict [("A", VInt 1)]) (CLS "Atr") = Ok (VObj (CUser "Atr") [("a", VInt 1); ("l", VList [])]).
Proof. reflexivity. Qed.
Example t_enum1 : ld (VInt 1) (CLS "Color") = Ok (VEnum (CUser "Color") "RED" (VInt 1)). Proof. reflexivity. Qed.
Example t_enum2 : kind_of (ld (VInt 7) (CLS "Color")) = Some KValue. Proof. reflexivity. Qed.
Example t_enum3 : ld (VList [VInt 1; VInt 2]) (CLS "AEnum") = Ok (VEnum (CUser "AEnum") "P" (VTuple [VInt 1; VInt 2])).
Proof. reflexivity. Qed.
Example t_ns : ld (VNamespace [("x", VInt 1)]) (CLS "Point") = Ok (VObj (CUser "Point") [("x", VInt 1); ("y", VInt 0)]).
Proof. reflexivity. Qed.
Example t_dict : ld (dict [("a", VStr "1")]) (DICT TStr TInt) = Ok (dict [("a", VInt 1)]). Proof. reflexivity. Qed.
Example t_path : ld (VStr "/a") (CLS "Path") = Ok (VInst (CUser "Path") (VStr "/a")). Proof. reflexivity. Qed.
Example t_newtype : ld (VStr "1") (TNewType "N" TInt) = Ok (VInt 1). Proof. reflexivity. Qed.

(** the trace (tests/test_exceptions.py) *)
Definition P0 : printer := mkPrinter (fun _ => "msg") (fun _ => "T") (fun _ => "v").
Definition path_of (r : res value) : option string :=
  match r with Exc (XTL _ _ tr _ _ _) => Some (path P0 tr) | _ => None end.
Example t_path1 : path_of (ld (dict [("x", VStr "q")]) (CLS "Point")) = Some ".x". Proof. reflexivity. Qed.
Example t_path2 : path_of (ld (VList [dict [("x", VInt 1)]; dict [("x", VStr "q")]]) (LIST (CLS "Point"))) = Some ".[1].x".
Proof. reflexivity. Qed.
Example t_path3 : path_of (ld (VStr "q") TInt) = Some ".". Proof. reflexivity. Qed.

(** ** Tests of the dumper *)
Example d_dc : dp (VObj (CUser "Point") [("x", VInt 1); ("y", VInt 0)]) = Ok (dict [("x", VInt 1)]). Proof. reflexivity. Qed.
Example d_ren : dp (VObj (CUser "Ren") [("field", VInt 1); ("other", VStr "q")])
                = Ok (dict [("other", VStr "q"); ("external", VInt 1)]).
Proof. reflexivity. Qed.
Example d_nt : dp (VNT (CUser "NT") [("a", VInt 1); ("b", VStr "z")]) = Ok (dict [("a", VInt 1)]). Proof. reflexivity. Qed.
Example d_attr : dp (VObj (CUser "Atr") [("a", VInt 1); ("l", VList [])]) = Ok (dict [("A", VInt 1)]). Proof. reflexivity. Qed.
Example d_tuple : dp (VTuple [VInt 1; VEnum (CUser "Color") "GREEN" (VStr "g")]) = Ok (VList [VInt 1; VStr "g"]). Proof. reflexivity. Qed.
Example d_unknown : kind_of (dp (VBytes "x")) = Some KValue. Proof. reflexivity. Qed.
Example d_date : dp (VInst CDate (VTuple [VInt 2020; VInt 1; VInt 2])) = Ok (VList [VInt 2020; VInt 1; VInt 2]). Proof. reflexivity. Qed.
