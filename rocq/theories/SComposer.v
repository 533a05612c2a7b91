(** Specification: a JSON object without its members of certain names. *)
From Verif Require Import Base MTokenizer SJson.
From Coq Require Import List NArith Arith Lia Bool.
Import ListNotations.
Open Scope nat_scope.

(** Text of a value without any whitespace. *)
Fixpoint commas (l : list bytes) : bytes :=
  match l with
  | [] => []
  | [x] => x
  | x :: r => x ++ [44%N] ++ commas r
  end.
Fixpoint dense (v : cst) : bytes :=
  match v with
  | CLit _ x => x
  | CArr es _ => [91%N] ++ commas (map (fun e => dense (e_v e)) es) ++ [93%N]
  | CObj ms _ => [123%N] ++ commas (map (fun m => m_kx m ++ [58%N] ++ dense (m_v m)) ms) ++ [125%N]
  end.

(** A member of one of the names: its name is written without escape sequences, as
    exactly these bytes. *)
Definition inner (x : bytes) : bytes := removelast (tl x).
Definition named (names : list bytes) (m : mem cst) : bool :=
  tok_eqb (m_kt m) TString && existsb (bytes_eqb (inner (m_kx m))) names.

(** The value without the members of the names, at any depth. *)
Fixpoint without (names : list bytes) (v : cst) : cst :=
  match v with
  | CLit t x => CLit t x
  | CArr es w => CArr (map (fun e => Elt (e_wc e) (e_wl e) (without names (e_v e))) es) w
  | CObj ms w =>
      CObj (filter (fun m => negb (named names m))
              (map (fun m => Mem (m_wc m) (m_wk m) (m_kt m) (m_kx m) (m_wd m) (m_wv m) (without names (m_v m))) ms)) w
  end.

(** What is taken out, in the order of the text: name, and the text between the
    colon and the end of the value. *)
Fixpoint taken (names : list bytes) (v : cst) : list (bytes * bytes) :=
  match v with
  | CLit _ _ => []
  | CArr es _ => flat_map (fun e => taken names (e_v e)) es
  | CObj ms _ =>
      flat_map (fun m => if named names m then [(inner (m_kx m), m_wv m ++ render (m_v m))] else taken names (m_v m)) ms
  end.

(** Arrays whose last element is a string without escape sequences. *)
Definition plain (v : cst) : bool := match v with CLit TString _ => true | _ => false end.
Fixpoint stringEnds (v : cst) : nat :=
  match v with
  | CLit _ _ => 0
  | CArr es _ =>
      list_sum (map (fun e => stringEnds (e_v e)) es) + (match rev es with e :: _ => if plain (e_v e) then 1 else 0 | [] => 0 end)
  | CObj ms _ => list_sum (map (fun m => stringEnds (m_v m)) ms)
  end.

(** Looking up the last of several entries. *)
Definition lookup (k : bytes) (l : list (bytes * bytes)) : option bytes :=
  match find (fun p => bytes_eqb (fst p) k) l with Some p => Some (snd p) | None => None end.

(** The tree without whitespace. *)
Fixpoint squeeze (v : cst) : cst :=
  match v with
  | CLit t x => CLit t x
  | CArr es _ => CArr (map (fun e => Elt [] [] (squeeze (e_v e))) es) []
  | CObj ms _ => CObj (map (fun m => Mem [] [] (m_kt m) (m_kx m) [] [] (squeeze (m_v m))) ms) []
  end.
(** The members of an object. *)
Definition membersOf (v : cst) : list (mem cst) := match v with CObj ms _ => ms | _ => [] end.
