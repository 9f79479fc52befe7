[
 {
  "id": "cnf1",
  "file": "Cnf",
  "definition": "pred_not",
  "old": "p_neg := negb (p_neg p)",
  "new": "p_neg := true",
  "edit": "negation always sets the sign",
  "claim": "C15: negation",
  "only": [
   "CnfProps"
  ]
 },
 {
  "id": "cnf2",
  "file": "Cnf",
  "definition": "pred_eqb",
  "old": "Bool.eqb (p_neg p) (p_neg q) &&",
  "new": "",
  "edit": "sign ignored in equality",
  "claim": "C15: equality as sets",
  "only": [
   "CnfProps"
  ]
 },
 {
  "id": "cnf3",
  "file": "Cnf",
  "definition": "clause_eqb",
  "old": "clause_le c2 c1 && clause_le c1 c2",
  "new": "clause_le c1 c2",
  "edit": "inclusion instead of equality",
  "claim": "C15: equality",
  "only": [
   "CnfProps"
  ]
 },
 {
  "id": "cnf4",
  "file": "Cnf",
  "definition": "clause_eqb",
  "old": "clause_le c2 c1 && clause_le c1 c2",
  "new": "clause_le c2 c1 && clause_le c1 c2 && (length c1 =? length c2)",
  "edit": "also requires equal length",
  "claim": "C15: equality as sets",
  "only": [
   "CnfProps"
  ]
 },
 {
  "id": "cnf5",
  "file": "Cnf",
  "definition": "cnf_eqb",
  "old": "cnf_le f2 f1 && cnf_le f1 f2",
  "new": "cnf_le f2 f1",
  "edit": "inclusion instead of equality",
  "claim": "C15: equality",
  "only": [
   "CnfProps"
  ]
 },
 {
  "id": "cnf6",
  "file": "Cnf",
  "definition": "clause_and",
  "old": "[l; r]",
  "new": "[l ++ r]",
  "edit": "conjunction of clauses concatenates them",
  "claim": "C15: conjunction",
  "only": [
   "CnfProps"
  ]
 },
 {
  "id": "cnf7",
  "file": "Cnf",
  "definition": "cnf_or",
  "old": "flat_map (fun cl => map (fun cr => clause_or cl cr) r) l",
  "new": "l ++ r",
  "edit": "disjunction implemented as conjunction",
  "claim": "C15: disjunction",
  "only": [
   "CnfProps"
  ]
 },
 {
  "id": "cnf8",
  "file": "Cnf",
  "definition": "cnf_or",
  "old": "| [], _ => r\n",
  "new": "| [], _ => []\n",
  "edit": "empty left operand absorbs",
  "claim": "C15: disjunction domain",
  "only": [
   "CnfProps"
  ]
 },
 {
  "id": "cnf9",
  "file": "Cnf",
  "definition": "clause_not",
  "old": "map (fun p => [pred_not p]) c",
  "new": "[map pred_not c]",
  "edit": "De Morgan missed",
  "claim": "C15: negation",
  "only": [
   "CnfProps"
  ]
 },
 {
  "id": "cnf10",
  "file": "Cnf",
  "definition": "cnf_not",
  "old": "fold_left (fun res c => cnf_or res (clause_not c)) f []",
  "new": "fold_left (fun res c => cnf_and res (clause_not c)) f []",
  "edit": "negation conjoins",
  "claim": "C15: negation",
  "only": [
   "CnfProps"
  ]
 },
 {
  "id": "cnf11",
  "file": "Cnf",
  "definition": "gen",
  "old": "| ENot e => gen (negb neg) e",
  "new": "| ENot e => gen true e",
  "edit": "double negation not cancelled",
  "claim": "C15: conversion",
  "only": [
   "CnfProps"
  ]
 },
 {
  "id": "cnf12",
  "file": "Cnf",
  "definition": "gen",
  "old": "| EAnd l r => binary l r (fun fl fr => Some (if neg then cnf_or fl fr else cnf_and fl fr))",
  "new": "| EAnd l r => binary l r (fun fl fr => Some (cnf_and fl fr))",
  "edit": "AND under negation",
  "claim": "C15: conversion",
  "only": [
   "CnfProps"
  ]
 },
 {
  "id": "cnf13",
  "file": "Cnf",
  "definition": "gen",
  "old": "| EEq l r => binary l r (fun fl fr => Some (if neg then cnf_not (equiv fl fr) else equiv fl fr))",
  "new": "| EEq l r => binary l r (fun fl fr => Some (equiv fl fr))",
  "edit": "negated equality not negated",
  "claim": "C15: conversion",
  "only": [
   "CnfProps"
  ]
 },
 {
  "id": "cnf14",
  "file": "Cnf",
  "definition": "gen",
  "old": "| ENe l r => binary l r (fun fl fr => Some (if neg then equiv fl fr else cnf_not (equiv fl fr)))",
  "new": "| ENe l r => binary l r (fun fl fr => Some (if neg then cnf_not (equiv fl fr) else equiv fl fr))",
  "edit": "<> treated as =",
  "claim": "C15: conversion",
  "only": [
   "CnfProps"
  ]
 },
 {
  "id": "cnf15",
  "file": "Cnf",
  "definition": "gen",
  "old": "let equiv fl fr := cnf_and (cnf_or (cnf_not fl) fr) (cnf_or (cnf_not fr) fl) in",
  "new": "let equiv fl fr := cnf_or (cnf_not fl) fr in",
  "edit": "equivalence is only an implication",
  "claim": "C15: conversion",
  "only": [
   "CnfProps"
  ]
 },
 {
  "id": "cnf16",
  "file": "Cnf",
  "definition": "gen",
  "old": "| EOther l r => binary l r (fun _ _ => None)",
  "new": "| EOther l r => binary l r (fun fl fr => Some (cnf_or fl fr))",
  "edit": "other operators silently converted",
  "claim": "C15: conversion only of operators with three-valued meaning",
  "only": [
   "CnfProps"
  ]
 }
]