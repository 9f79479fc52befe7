-Q theories Verif
theories/Word.v
theories/WordProofs.v
theories/Bitset.v
theories/BitsetProofs.v
theories/GosperProofs.v
theories/BitsetProps.v
theories/Graph.v
theories/GraphSpec.v
theories/GraphProofs.v
theories/ClosureProofs.v
theories/CSGProofs.v
theories/GraphProps.v
theories/PlanSpec.v
theories/PlanEnum.v
theories/PlanProofs.v
theories/PlanInst.v
theories/PlanAlgos.v
theories/PlanTD.v
theories/PlanMinCut.v
theories/PlanTDInst.v
theories/PlanProps.v
theories/Arith.v
theories/ArithProps.v
theories/Strings.v
theories/StringsProps.v
theories/QSort.v
theories/QSortProps.v
theories/Cnf.v
theories/CnfProps.v
theories/Index.v
theories/IndexFloat.v
theories/IndexProps.v
theories/RCHash.v
theories/RCHashProofs.v
theories/RCHashProps.v
theories/RWLock.v
theories/RWLockProps.v
theories/Pool.v
theories/PoolProps.v
theories/LinAlloc.v
theories/LinAllocProps.v
theories/ListAlloc.v
theories/ListAllocProps.v
theories/StackMachine.v
theories/StackMachineProps.v
theories/Tuple.v
theories/TupleProps.v
theories/Dates.v
theories/DatesProps.v
theories/Schema.v
theories/SchemaProps.v
theories/Types.v
theories/TypesProps.v
theories/Scheduler.v
theories/SchedulerProps.v
theories/Insert.v
theories/InsertProps.v
theories/XorList.v
theories/XorListProps.v
theories/Layout.v
theories/LayoutProps.v
theories/Msf.v
theories/Forest.v
theories/MsfProps.v
theories/Lexer.v
theories/LexerProps.v
theories/DSV.v
theories/DSVProps.v
theories/StackMachineExact.v
theories/LayoutExact.v
theories/CSGOrder.v
theories/PlanCcp.v
theories/Interp.v
theories/InterpSpec.v
theories/InterpProofs.v
theories/InterpJoins.v
theories/InterpOps.v
theories/InterpAggs.v
theories/InterpProps.v
theories/InterpClaims.v
theories/Optimizer.v
theories/OptimizerSpec.v
theories/OptimizerProofs.v
theories/OptimizerProps.v
theories/OptimizerClaims.v
theories/Finish.v
theories/FinishSpec.v
theories/FinishProps.v
theories/Minimize.v
theories/MinimizeSpec.v
theories/MinimizeSim.v
theories/MinimizeSchemas.v
theories/MinimizeRows.v
theories/MinimizeSem.v
theories/MinimizeSound.v
theories/MinimizeProofs.v
theories/MinimizeProps.v
theories/LoadStore.v
theories/LoadStoreSim.v
theories/LoadStoreSpec.v
theories/LoadStoreTree.v
theories/LoadStoreJump.v
theories/LoadStoreStrides.v
theories/LoadStoreBits.v
theories/LoadStoreAccess.v
theories/LoadStoreRun.v
theories/LoadStoreStatic.v
theories/LoadStoreMain.v
theories/LoadStoreProofs.v
theories/LoadStoreLayouts.v
theories/LoadStoreProps.v
theories/PlanTable.v
theories/PlanTableSpec.v
theories/PlanTableProofs.v
theories/PlanTableProps.v
theories/PlanTableEnum.v
theories/PlanTableEnumProofs.v
theories/PlanTableEnumProps.v
theories/Parser.v
theories/ParserSpec.v
theories/ParserProofs.v
theories/ParserStmt.v
theories/ParserSound.v
theories/ParserStmtSound.v
theories/ParserTerm.v
theories/ParserPrint.v
theories/ParserPrint2.v
theories/ParserPrint3.v
theories/ParserProps.v
theories/PhysOpt.v
theories/PhysOptSpec.v
theories/PhysOptProofs.v
theories/PhysOptProps.v
theories/PartialPlan.v
theories/PartialPlanSpec.v
theories/PartialPlanProofs.v
theories/PartialPlanProps.v
theories/Condition.v
theories/ConditionSpec.v
theories/ConditionProofs.v
theories/ConditionProps.v
theories/GridSearch.v
theories/GridSearchSpec.v
theories/GridSearchProofs.v
theories/GridSearchFloat.v
theories/GridSearchProps.v
theories/Ddl.v
theories/DdlSpec.v
theories/DdlProofs.v
theories/DdlStep.v
theories/DdlProps.v
theories/ArgParser.v
theories/ArgSpec.v
theories/ArgProofs.v
theories/ArgProps.v
theories/CardEst.v
theories/CardEstSpec.v
theories/CardEstProps.v
theories/Goo.v
theories/GooSpec.v
theories/GooProps.v
theories/TdGoo.v
theories/TdGooSpec.v
theories/TdGooProps.v
