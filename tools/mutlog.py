#!/usr/bin/env python3
"""mutation results (JSON lines of the harness) -> seeded/LOG.jsonl"""
import json,sys
man=json.load(open('/verif/MANIFEST.json')); th2c={}
for c in man['claims']:
    for t in c['theorems']: th2c.setdefault(t,[]).append(c['property'])
NOTE={
 ('IoSvg','least'):("none: default of the least element of a list that is not empty under the hypotheses",[]),
 ('IoSvg','apart'):("none: the edited definition is part of the specification (it is weakened)",[]),
 ('DirectSchwarz','superlu_solver'):("C82: damping in the multiplicative modes (relaxResult scales the current entry only)",["C82_schwarz_steps"]),
 ('Spqr','wf_call'):("none: the hypothesis is narrowed (orders above 1 instead of above 0), the claim for the others is unaffected",[]),
 ('Spqr','decompose'):("none claimed: a complex matrix without entries",[]),
 ('Spqr','factorisation'):("none: the bound variables of the specification are exchanged",[]),
('Superlu','solve'):("C79: plain arrays that are too short are read or written past their end",["C79_arrays_refuted"]),
('Umfpack','construct_file'):("C77: a file that cannot be read is reported as IOError",["C77_no_file"]),
('Ldl','wf_call'):("none: the hypothesis is narrowed (orders above 1 instead of above 0), the claim for the others is unaffected",[]),
('Ldl','symmetric'):("none: an equivalent statement of symmetry",[]),
('Ldl','factorisation'):("none: an equivalent order of the quantifiers",[]),
('ParGalerkin','gloc'):("none: a literal of an example matrix; the theorem still shows a process whose overlap row is kept wrong",[]),
('ParGalerkin','build_parallel'):("none: which way an assertion on unaggregated vertices fails is not claimed, C74_pattern says that it never does",[]),
('ParAmg','pmgc'):("C75: with a coarse solver that fails on one process MathError is thrown",["C75_throws"]),
 ('Solvers','cg_after'):("C50 (CG direction wrong)",["C50_cg_galerkin","C50_cg_optimal"]),
 ('Solvers','cg_body'):("C50 (CG step length wrong)",["C50_cg_galerkin","C50_cg_optimal"]),
 ('Solvers','cg_apply'):("none: the initial rho is overwritten before use",[]),
 ('Solvers','minres_body'):("C51 (MINRES recurrences wrong)",["C51_minres","C51_minres_optimal"]),
 ('Solvers','minres_prepare'):("C51 if the entry is read; the array entry edited here is overwritten before it is read",["C51_minres"]),
 ('Solvers','minres_apply'):("none: overwritten by the preparation",[]),
 ('Solvers','bicg'):("C52 (BiCGSTAB direction wrong)",["C52_bicgstab"]),
 ('Solvers','iter0'):("none: overwritten by step 0",[]),
 ('Solvers','knth'):("none: default of a list lookup that is always in range",[]),
 ('GsModel','blk_solve'):("C13, C14 (exception for a singular diagonal block)",["C13_singular_diagonal","C14_singular_diagonal"]),
 ('IluSolve','crs_backsolve'):("none claimed: guard for factors of different size",[]),
 ('Dense','dalloc'):("none claimed: kind of the allocation failure",[]),
 ('ScaledId','si_solve'):("none: n = 0 with a non-invertible scalar",[]),
 ('MarketParallel','read_Z'):("none claimed: fail bit after malformed text; C58 is about files the library wrote",[]),
 ('MarketParallel','set_fail'):("none claimed: fail bit after malformed text; C58 is about files the library wrote",[]),
 ('MarketParallel','lf_loop'):("none claimed: end-of-file bit behind the last line",[]),
 ('PowerIter','tlime_values'):("none: q_norm is not read in the RQI case",[]),
 ('PowerIter','op_of'):("none: the iteration matrix has always been built when it is applied",[]),
 ('Norms','sgn'):("none: norms are not negative, the branch is not reached",[]),
 ('Norms','nlt'):("none: norms are never minus infinity",[]),
 ('Norms','ndiv'):("none: only x/x is divided",[]),
 ('SeqSchwarz','max_size'):("none: buffer size only",[]),
 ('Bicgstab','lead'):("none: leading coefficient over a commutative field",[]),
 ('HierarchyCont','owns'):("none: the out-of-fuel/dangling branch is not reached",[]),
 ('AmgSetup','pick'):("none: a number that is in use is redrawn, same results",[]),
 ('AmgSetup','zip3'):("none: C59 quantifies over arbitrary initial vectors",[]),
 ('Strength','above'):("none: row without an off-diagonal entry, nothing is tested",[]),
 ('Strength','atleast'):("none: row without an off-diagonal entry, nothing is tested",[]),
 ('Strength','scaled'):("none: the edited definition is the hypothesis of the specification",[]),
 ('KAmg','loopK'):("none claimed: the stopping decision, hence the number it is given, is arbitrary in C64",[]),
 ('KAmg','loopSteps'):("none claimed: the stopping decision, hence the number it is given, is arbitrary in C64",[]),
 ('Cholmod','init'):("C63: a solver that was given one matrix releases everything",["C63_no_leak"]),
 ('Cholmod','fillLoop'):("none: the bound is not exceeded under the hypotheses",[]),
 ('Cholmod','meaning'):("none: Nat.min and Nat.max are commutative",[]),
 ('Cholmod','legal'):("none: the edited definition is part of the specification",[]),
 ('IoPrint','sp_block'):("C66: the entries and indices of a block are printed",["C66_sparse"]),
 ('IoPrint','blocks'):("none: the vector printed is not a single number",[]),
 ('IoPrint','mN'):("none: the matrix printed is not a single number",[]),
 ('IoPrint','mM'):("none: the matrix printed is not a single number",[]),
 ('IoMatlab','sint'):("none: above the bound on the number of rows and columns (proviso)",[]),
 ('IoMatlab','wnum'):("none: the branch is excluded by the bound on the number of rows and columns (proviso)",[]),
 ('IoPrint','dim'):("none: the count does not depend on the offset the traversal starts with",[]),
 ('Repartition','plt'):("none: the first components are distinct, the second ones are never compared",[]),
 ('RepartPrep','vtxDist'):("none: default of the last element of a list that is never empty",[]),
 ('Redistribute','glob'):("none: default for a column without index, excluded by the hypotheses",[]),
 ('Gmres','recip'):("none: scales the zero vector",[]),
}
AGG="none claimed: heuristic choice of the neighbour, C47 holds for every choice"
out=[]
for l in open(sys.argv[1]):
    d=json.loads(l)
    if d['out']=='invalid': continue
    r=dict(definition=d['file']+'.'+d['defn'],edit=d['edit']+' in: '+d['nctx'].strip())
    if d['out']=='killed':
        th=d.get('theorems') or []
        cl=sorted({c for t in (th or d['reach']) for c in th2c.get(t,[])})
        r.update(claim=', '.join(cl),failed=th or [d.get('failed','')],first_failure=d.get('failed',''),tightened=[])
    else:
        n=NOTE.get((d['file'],d['defn']))
        if 'UB -> Throw' in d['edit']: n=("none: the branch is excluded by the hypotheses of the claims (misuse)",[])
        if n is None and d['file']=='Aggregation' and d['defn'][:2]!='ex': n=(AGG,[])
        if n is None and d['dropped']: n=("none beyond the example data; the non-vacuity example fails",[])
        if n is None: n=("none: default value, bound variable or example data, behaviour unchanged",[])
        r.update(claim=n[0],failed=[],survived=True,tightened=n[1])
    out.append(r)
with open('/verif/seeded/LOG.jsonl','w') as f:
    for r in out: f.write(json.dumps(r)+'\n')
print(len(out))
