-Q theories Verif
theories/Prelude.v
theories/Base.v
theories/PreludeFacts.v
theories/BaseFacts.v
theories/BaseFacts2.v
theories/Loop.v
theories/Spec.v
theories/SpecFacts.v
theories/BaseFacts3.v
theories/PropsBase.v
theories/SearchFacts.v
theories/BaseAlg.v
theories/BaseAlgFacts.v
theories/Bfs.v
theories/BfsFacts.v
theories/Dfs.v
theories/DfsFacts.v
theories/Topo.v
theories/TopoFacts.v
theories/PropsSearch.v
theories/Sp.v
theories/SpFacts.v
theories/BidirFacts.v
theories/CacheFacts.v
theories/PropsSp.v
theories/Fw.v
theories/FwFacts.v
theories/DmFacts.v
theories/TreeFacts.v
theories/PropsFw.v
theories/Dag.v
theories/DagFacts.v
theories/Cpm.v
theories/CpmFacts.v
theories/SlackFacts.v
theories/PropsDag.v
theories/Paths.v
theories/PathsFacts.v
theories/PropsPaths.v
theories/FlowSpec.v
theories/Flow.v
theories/FlowFacts.v
theories/MaxFlowFacts.v
theories/FlowFacts2.v
theories/PropsFlow.v
theories/MiscSpec.v
theories/Partite.v
theories/PartiteFacts.v
theories/Cycle.v
theories/CycleFacts.v
theories/Fsm.v
theories/FsmSpec.v
theories/FsmFacts.v
theories/Hash.v
theories/HashFacts.v
theories/FlowHashFacts.v
theories/PropsMisc.v
theories/PropsHash.v
theories/Random.v
theories/Nearest.v
theories/RandomFacts.v
theories/PropsRandom.v
theories/TrafficSpec.v
theories/Traffic.v
theories/TrafficFacts.v
theories/Jam.v
theories/JamFacts.v
theories/JamFacts2.v
theories/JamFacts3.v
theories/JamFacts4.v
theories/PropsTraffic.v
theories/PropsJam.v
theories/Perms.v
theories/RailSpec.v
theories/Rail.v
theories/RailFacts.v
theories/PropsRail.v
theories/AssignSpec.v
theories/Assign.v
theories/AssignFacts.v
theories/AssignFacts2.v
theories/PropsAssign.v
theories/WtapSpec.v
theories/Wtap.v
theories/WtapFacts.v
theories/WtapFacts2.v
theories/WtapFacts3.v
theories/PropsWtap.v
theories/TspSpec.v
theories/Tsp.v
theories/TspFacts.v
theories/TspGreedy.v
theories/TspOpt.v
theories/PropsTsp.v
theories/Bnb.v
theories/BnbFacts.v
theories/PropsBnb.v
theories/McfSpec.v
theories/Mcf.v
theories/McfFacts.v
theories/McfFacts2.v
theories/McfOpt.v
theories/PropsMcf.v
theories/Heap.v
theories/HeapSpec.v
theories/HeapFacts.v
theories/HeapFacts2.v
theories/HeapFacts3.v
theories/HeapFacts4.v
theories/PropsHeap.v
theories/Graph3d.v
theories/PropsGraph3d.v
theories/Plot.v
theories/PropsPlot.v
theories/Train.v
theories/PropsTrain.v
theories/Class3d.v
theories/PropsClass3d.v
theories/GSp.v
theories/GSpec.v
theories/GSpFacts.v
theories/Float64.v
theories/PropsFloat.v
theories/PropsFlowFloat.v
theories/Objects.v
theories/PropsObjects.v
theories/Grid.v
theories/PropsGrid.v
theories/FloatSpec.v
theories/FwFloat.v
theories/GBidirFacts.v
theories/NearFloat.v
theories/PropsFloat2.v
theories/TspLocal.v
theories/PropsTspLocal.v
theories/PropsSolve.v
theories/GTspSpec.v
theories/GTsp.v
theories/GTspFacts.v
theories/PropsTspFloat.v
theories/GTspSim.v
theories/FloatExact.v
theories/PropsTspFloat2.v
theories/PropsFloat3.v
theories/Selectors.v
theories/PropsNone.v
theories/GCpm.v
theories/GCpmFacts.v
theories/FloatSigned.v
theories/GCpmSpec.v
theories/CpmFloat.v
theories/PropsCpmFloat.v
theories/Gen.v
theories/GenFacts.v
theories/PropsGen.v
theories/GFlow.v
theories/GFlowSpec.v
theories/FloatStep.v
theories/FlowFloat.v
theories/GFlowFacts.v
theories/FlowFloat2.v
theories/FlowFloat3.v
theories/PropsFlowFloat2.v
theories/GMcf.v
theories/GMcfSpec.v
theories/McfFloat.v
theories/McfFloat2.v
theories/McfFloat3.v
theories/McfFloat4.v
theories/PropsMcfFloat.v
theories/GFw.v
theories/GFwSpec.v
theories/CentreFloat.v
theories/PropsCentreFloat.v
theories/GDm.v
theories/GDmFacts.v
theories/PropsGDm.v
theories/GTree.v
theories/GTreeFacts.v
theories/PropsGTree.v
theories/GSlack.v
theories/GSlackSpec.v
theories/GSlackFacts.v
theories/PropsGSlack.v
theories/Audit.v
