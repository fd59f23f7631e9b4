-Q theories Verif
theories/Common/Orders.v
theories/BinHeap/Model.v
theories/BinHeap/Proofs.v
theories/BinHeap/Props.v
theories/IntOpen/Model.v
theories/IntOpen/Proofs.v
theories/IntOpen/Props.v
theories/Intpq/Model.v
theories/Intpq/Proofs.v
theories/Intpq/Props.v
theories/Djset/Model.v
theories/Djset/Proofs.v
theories/Djset/Props.v
theories/Common/Fuel.v
theories/Hash/Model.v
theories/Hash/Proofs.v
theories/Hash/HtableProps.v
theories/Hash/ClosedProps.v
theories/Pool/Model.v
theories/Pool/Props.v
theories/Kdtree/Model.v
theories/Kdtree/Props.v
theories/Kdtree/KdFloat.v
theories/Stn/Model.v
theories/Stn/Proofs.v
theories/Stn/Props.v
theories/Encode/Model.v
theories/Encode/Proofs.v
theories/Encode/Props.v
theories/Arith/Model.v
theories/Arith/Props.v
theories/Rank/Model.v
theories/Rank/Props.v
theories/Text/Model.v
theories/Text/Props.v
theories/Search/Open.v
theories/Search/Domain.v
theories/Search/Model.v
theories/Search/Proofs.v
theories/Search/Props.v
theories/Search/Counters.v
theories/Search/Along.v
theories/Search/Beam.v
theories/Search/BeamProps.v
theories/Jenkins/Model.v
theories/Jenkins/Props.v
theories/Ida/Model.v
theories/Ida/Props.v
theories/Ida/Limits.v
theories/Search/Solve.v
theories/Tiles/Model.v
theories/Tiles/Props.v
theories/Tiles/Solve.v
theories/Tiles/Parity.v
theories/Pancake/Model.v
theories/Pancake/Props.v
theories/Pancake/InPlace.v
theories/Pancake/Solve.v
theories/Gridnav/Model.v
theories/Gridnav/Props.v
theories/Gridnav/Terrain.v
theories/Gridnav/Heur.v
theories/Gridnav/Root.v
theories/Gridnav/Solve.v
theories/Vacuum/Model.v
theories/Vacuum/Props.v
theories/Vacuum/Solve.v
theories/Drobot/Model.v
theories/Drobot/Props.v
theories/Drobot/Pack.v
theories/Drobot/Heur.v
theories/Drobot/Solve.v
theories/Ara/Model.v
theories/Ara/Proofs.v
theories/Ara/Refine.v
theories/Ara/Loop.v
theories/Ara/Props.v
theories/Ara/Incons.v
theories/Rta/Model.v
theories/Rta/Props.v
theories/Lss/Model.v
theories/Lss/Learn.v
theories/Lss/Look.v
theories/Lss/Run.v
theories/Lss/Props.v
theories/Lss/Complete.v
theories/Lss/CompleteProps.v
theories/Segments/Model.v
theories/Segments/Props.v
theories/Segments/Admissible.v
theories/Traffic/Model.v
theories/Traffic/Props.v
theories/Rdb/Model.v
theories/Rdb/Attrs.v
theories/Rdb/Paths.v
theories/Rdb/Props.v
theories/Rdb/Tools.v
theories/Rdb/ToolsProps.v
theories/Anyprof/Model.v
theories/Anyprof/Monitor.v
theories/Anyprof/Props.v
theories/Plat2d/Model.v
theories/Plat2d/Motion.v
theories/Plat2d/Start.v
theories/Plat2d/Props.v
theories/Plat2d/Dijkstra.v
theories/Plat2d/Heuristic.v
theories/Plat2d/Diag.v
theories/Bugsy/Model.v
theories/Bugsy/Proofs.v
theories/Bugsy/Order.v
theories/Bugsy/Props.v
theories/Pdb/Model.v
theories/Pdb/Props.v
theories/Grid2poly/Model.v
theories/Grid2poly/Trace.v
theories/Grid2poly/Components.v
theories/Grid2poly/Inside.v
theories/Grid2poly/Props.v
theories/Grid2poly/Rooms.v
theories/Geom/Model.v
theories/Geom/Basics.v
theories/Geom/Polygon.v
theories/Geom/Map.v
theories/Geom/Grid.v
theories/Visnav/Model.v
theories/Visnav/Graph.v
theories/Visnav/Props.v
theories/Visnav/Route.v
theories/Fhat/Model.v
theories/Fhat/Proofs.v
theories/Fhat/Learn.v
theories/Fhat/Props.v
theories/Fhat/Order.v
theories/Fhat/Goal.v
theories/Limits/Model.v
theories/Limits/Props.v
theories/Dta/Model.v
theories/Dta/Proofs.v
theories/Dta/Props.v
theories/Dta/Learn.v
theories/Dta/Table.v
theories/Dta/TableProps.v
theories/Dta/Decide.v
theories/Dta/DecideProps.v
theories/Dta/Rows.v
theories/Dta/RowsProps.v
theories/Rrt/Model.v
theories/Rrt/Props.v
theories/Restart/Model.v
theories/Restart/Props.v
theories/Learnh/Model.v
theories/Learnh/Props.v
theories/Scenario/Model.v
theories/Scenario/Props.v
